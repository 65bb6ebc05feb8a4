(** Betweenness centrality (benchmarks/BCAllGrb.cpp 295-453, msp_bc_internal).

    Simplifications.  Values are exact rationals (in the code float or double; the inverse is taken
    with GrB_MINV_FP32 for both).  The GraphBLAS calls are not part of the repository and are given by
    contract, as the entries of the matrix they produce ([holds]).  GraphBLAS matrices are kept by rows, columns
    ascending (main, 590, GxB_BY_ROW; get_grb_mat, CSR.h 808-826, packs with is_jumbled = false,
    so a matrix with unsorted rows must not be packed: here such a step does not exist).  Moving the
    arrays between CSR and GrB_Matrix does not change the matrix; avoid_iso (grb_util.h 893-904) writes the
    value that is there.  depth (int32_t) does not overflow.  Timing, and freeing the objects, are left out. *)
From Coq Require Export ZArith QArith.Qcanon.
From stdpp Require Export numbers.
From Verif Require Export BcSpec GraphSpec.
From Verif Require Export Base Spec.

(** [f_second]: BCAllGrb.cpp 334 *)
Definition fSecond (_ b : Qc) : Qc := b.

(** First value stored with index [j] in a row.
    Part of the contract of GrB_Matrix_extractElement; used for the matrices of BCAllGrb.cpp 346-441. *)
Fixpoint findKey {V} (j : nat) (l : list (nat * V)) : option V :=
  match l with [] => None | (c, v) :: l => if decide (c = j) then Some v else findKey j l end.
(** Entry (i, j) of a matrix: GrB_Matrix_extractElement, as the contracts below use it (BCAllGrb.cpp 346-441) *)
Definition ent {V} (C : csr V) (i j : nat) : option V := findKey j (row_entries C i).
(** [C] is an [n] by [m] matrix, rows in order, with the entries [f]: the state of a GrB_Matrix (BCAllGrb.cpp 331) *)
Definition holds (n m : nat) (C : csr Qc) (f : nat -> nat -> option Qc) : Prop :=
  wf C /\ sorted_rows C /\ rows C = n /\ cols C = m /\ forall i j, i < n -> j < m -> ent C i j = f i j.

(** GrbMatrixBuild(&F, srcs, cids, vals): ones at (srcs[c], c).  BCAllGrb.cpp 341-347 *)
Definition buildF (srcs : list nat) (i j : nat) : option Qc := if decide (srcs !! j = Some i) then Some 1%Qc else None.
(** GrB_Matrix_eWiseAdd_BinaryOp with plus: union of the patterns.  BCAllGrb.cpp 373-374 *)
Definition eAdd (x y : option Qc) : option Qc :=
  match x, y with Some a, Some b => Some (a + b)%Qc | Some a, None => Some a | None, y => y end.
(** GrB_Matrix_eWiseMult_BinaryOp with times: intersection of the patterns.  BCAllGrb.cpp 408-410, 419-421 *)
Definition eMult (x y : option Qc) : option Qc :=
  match x, y with Some a, Some b => Some (a * b)%Qc | _, _ => None end.
(** A mask given without descriptor GrB_STRUCTURE lets through the entries with a value other than 0.  BCAllGrb.cpp 409 *)
Definition maskOn (x : option Qc) : bool := match x with Some v => bool_decide (v <> 0%Qc) | None => false end.

Section Bc.
(** [mxmC A B M C]: f_cmpl(A, B, B, M, f_second, plus, tnum) leaves C in B; [mxmP]: likewise f_plain. *)
Context (mxmC mxmP : csr Qc -> csr Qc -> csr Qc -> csr Qc -> Prop) (n s : nat).

(** The loop on the frontiers, from the state (F, N, preds); results: final preds and N.  BCAllGrb.cpp 359-378 *)
Inductive sigma (Atr : csr Qc) : csr Qc -> csr Qc -> list (csr Qc) -> list (csr Qc) -> csr Qc -> Prop :=
| sigma_stop F N preds F' N' :
    mxmC Atr F N F' -> sorted_rows F' -> holds n s N' (fun i j => eAdd (ent N i j) (ent F' i j)) -> nnz F' = 0 ->
    sigma Atr F N preds (preds ++ [F']) N'
| sigma_more F N preds F' N' preds'' N'' :
    mxmC Atr F N F' -> sorted_rows F' -> holds n s N' (fun i j => eAdd (ent N i j) (ent F' i j)) -> nnz F' <> 0 ->
    sigma Atr F' N' (preds ++ [F']) preds'' N'' -> sigma Atr F N preds preds'' N''.

(** The loop on the dependencies, with [d] iterations to go; from BCu to its final value.  BCAllGrb.cpp 406-424 *)
Inductive back (A N Ninv : csr Qc) (preds : list (csr Qc)) : nat -> csr Qc -> csr Qc -> Prop :=
| back_done BCu : back A N Ninv preds 0 BCu BCu
| back_step d BCu Pd Pd1 W W' BCu' R :
    preds !! S d = Some Pd -> preds !! d = Some Pd1 ->
    holds n s W (fun i j => if maskOn (ent Pd i j) then eMult (ent Ninv i j) (ent BCu i j) else None) ->
    mxmP A W Pd1 W' -> sorted_rows W' ->
    holds n s BCu' (fun i j => eAdd (ent BCu i j) (eMult (ent W' i j) (ent N i j))) ->
    back A N Ninv preds d BCu' R -> back A N Ninv preds (S d) BCu R.
End Bc.

(** GrB_Matrix_reduce_BinaryOp with plus: the sum of each row that has entries.  BCAllGrb.cpp 431-432 *)
Definition rowSums (C : csr Qc) : list (option Qc) :=
  (fun i => sum1 Qcplus (snd <$> row_entries C i)) <$> seq 0 (rows C).

(** The function: from A and srcs, with [rounds] frontiers computed, to the vector delta (no entry, or a value,
    per vertex).  BCAllGrb.cpp 334-441 *)
Definition bcRun (mxmC mxmP : csr Qc -> csr Qc -> csr Qc -> csr Qc -> Prop) (A : csr Qc) (srcs : list nat)
    (rounds : nat) (delta : list (option Qc)) : Prop :=
  let n := rows A in
  let s := length srcs in
  0 < s /\ Forall (fun v => v < n) srcs /\
  exists F Atr preds N Ninv B0 BCu,
    holds n s F (buildF srcs) /\
    holds n n Atr (fun i j => ent A j i) /\
    sigma mxmC n s Atr F F [] preds N /\
    holds n s Ninv (fun i j => option_map Qcinv (ent N i j)) /\
    holds n s B0 (fun _ _ => Some 1%Qc) /\
    back mxmP n s A N Ninv preds (length preds - 1) B0 BCu /\
    rounds = length preds /\
    delta = option_map (fun x => (x + - Qc_of_nat s)%Qc) <$> rowSums BCu.
