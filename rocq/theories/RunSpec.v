(** What the report of a benchmark says and what is lost, stated without the models. *)
From Coq Require Import NArith.
From stdpp Require Import gmap.
From Verif Require Import RunModel.
From Verif Require Import Base Spec.

(** Arrays of the right lengths. *)
Definition shape {V} (R : csr V) : Prop := length (rowptr R) = rows R + 1 /\ length (colids R) = nnz R /\ length (values R) = nnz R.

(** A result that the output object can take over: an assignment does not set the pointers of a matrix without entries. *)
Definition handed {V} (k : kind) (R : csr V) : Prop := shape R /\ match k with KAssign => wf R /\ nnz R <> 0 | _ => True end.

(** A line of the report speaks about a result of the product with [t] threads, namely of a call on an empty output
    object if [one] holds: its number of entries, the sum of its values and the checksum of its arrays. *)
Definition line_says {V S} (zero : S) (step : S -> V -> S) (plus : S -> S -> S) (encI : nat -> list N) (encV : V -> list N) (szI szV : nat)
    (prod : nat -> nat -> csr V -> Prop) (t : nat) (one : Prop) (l : line S) : Prop :=
  l_threads l = t /\ exists nz R, prod t nz R /\ (one -> nz = 0) /\ l_nnz l = nnz R /\
    sumall_result zero step plus (values R) (nnz R) (l_sum l) /\
    checksum encI encV szI szV (rows R) (nnz R) (rowptr R) (colids R) (values R) = Ok (l_check l).

(** Blocks that nothing refers to any more after [w] warm-up and [n] measured calls with [t] threads.  [none]: the
    results have no entries (they have rows in any case); [null0]: malloc(0) gives NULL. *)
Section Lost.
Context (null0 none : bool) (k : kind) (t : nat).
(** Zero-length arrays of the result are never released. *)
Definition lost_result : nat := if none && negb null0 then 2 else 0.
(** The local matrix of innerSpGEMM_nohash; threadsNvals of HeapSpGEMM. *)
Definition lost_local : nat :=
  match k with
  | KNohash mrows mnnz => (if mnnz =? 0 then if null0 then 0 else 2 else 0) + (if mrows =? 0 then 1 else 0)
  | KHeap => if null0 && (t =? 0) then 0 else 1
  | _ => 0
  end.
(** The arrays of the result before, in a call on an object that was not emptied. *)
Definition lost_before : nat :=
  match k with
  | K1p | K2p | KAssign => 0
  | KOver | KNohash _ _ => if none then 1 else 3
  | KHeap => if none then 1 else 0
  end.
Definition lost (w n : nat) : nat := (w + n) * (lost_result + lost_local) + (w - 1) * lost_before.
End Lost.
