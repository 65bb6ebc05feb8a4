(** Pieces shared by the row kernels: nested product loop over A's row and B's rows,
    iteration over a mask row.  Definitions only. *)
From Verif Require Import Base Spec.

Section KernelBase.
Context {V S : Type}.

(** Row bounds [X.rowptr[row]] and [X.rowptr[row+1]]
    (spgemm-blocks/msa/MSAAlgorithm.h:44-45,53,55 and the same expressions in every kernel). *)
Definition row_bounds (X : csr V) (row : nat) : res (nat * nat) :=
  b <- get (rowptr X) row ;;
  e <- get (rowptr X) (row + 1) ;;
  Ok (b, e).

(** [for (IT j = A.rowptr[row]; ...) { inner = A.colids[j];
       for (IT k = B.rowptr[inner]; k < B.rowptr[inner+1]; k++) body }]
    spgemm-blocks/msa/MSAAlgorithm.h:53-61,112-121,167-179,215-227,261-277,313-329;
    spgemm-blocks/hash/MaskedHashAlgorithm.h:52-58,77-92,141-147,172-186. *)
Definition prod_loop (A B : csr V) (row : nat) (body : nat -> nat -> S -> res S) (s : S) : res S :=
  '(ab, ae) <- row_bounds A row ;;
  for_ ab ae (fun j s =>
    inner <- get (colids A) j ;;
    '(kb, ke) <- row_bounds B inner ;;
    for_ kb ke (fun k s => body j k s) s) s.

(** [for (auto maskIt = maskBegin; maskIt != maskEnd; maskIt++) body( *maskIt )]
    spgemm-blocks/msa/MSAAlgorithm.h:44-50,64-66,124-128,163-165,182-191,211-213;
    spgemm-blocks/hash/MaskedHashAlgorithm.h:47-49,73-75,150-153,168-170,190-192. *)
Definition mask_loop (M : csr V) (row : nat) (body : nat -> S -> res S) (s : S) : res S :=
  '(mb, me) <- row_bounds M row ;;
  for_ mb me (fun i s => c <- get (colids M) i ;; body c s) s.
End KernelBase.
