(** What benchmarks/MaskedAllSpGEMM.cpp prints, over the lists of entries (row, column, value) of its three files. *)
From Coq Require Import NArith ZArith Ascii String.
From stdpp Require Import strings list.
From Verif Require Import IoSpec MainSpec PropReport.
From Verif Require Import Base Spec.
Local Open Scope nat_scope.

(** Pairs of an entry (i, k) of the first and an entry (k, j) of the second list. *)
Definition meeting (EA EB : list (nat * nat * Z)) : list ((nat * nat * Z) * (nat * nat * Z)) :=
  filter (fun p => snd (fst (fst p)) = fst (fst (snd p))) (list_prod EA EB).
(** Pairs of two entries in the same column. *)
Definition same_column (EA EB : list (nat * nat * Z)) : list ((nat * nat * Z) * (nat * nat * Z)) :=
  filter (fun p => snd (fst (fst p)) = snd (fst (snd p))) (list_prod EA EB).
(** The number of entries, and of products, in row i. *)
Definition entries_in (E : list (nat * nat * Z)) (i : nat) : nat := length (filter (fun e => fst (epos e) = i) E).
Definition products_in (EA EB : list (nat * nat * Z)) (i : nat) : nat := length (filter (fun p => fst (epos (fst p)) = i) (meeting EA EB)).

Section Values.
Context {V : Type} (zero : V) (mul add : V -> V -> V) (ofInt : Z -> V).
(** The products at position (i, j). *)
Definition products_at (EA EB : list (nat * nat * Z)) (i j : nat) : list V :=
  (fun p : (nat * nat * Z) * (nat * nat * Z) => mul (ofInt (snd (fst p))) (ofInt (snd (snd p)))) <$> filter (fun p => step_pos p = (i, j)) (meeting EA EB).
(** [v] is the sum of the values of the list in some order and with some brackets. *)
Inductive sums : list V -> V -> Prop :=
| sums_one x : sums [x] x
| sums_add l1 l2 l x y : sums l1 x -> sums l2 y -> l ≡ₚ l1 ++ l2 -> sums l (add x y).

(** [R] is the product of the first two under the third as mask: it has the positions of the mask with a product, once
    each, and at each the sum of its products, a zero among them if [zeroed].  [srt]: the columns of every row are in order. *)
Definition answerA (EA EB EM : list (nat * nat * Z)) (m n : nat) (srt zeroed : bool) (R : csr V) : Prop :=
  wf R /\ rows R = m /\ cols R = n /\
  (forall i, i < m -> NoDup (row_cols R i) /\ (srt = true -> StronglySorted lt (row_cols R i))) /\
  (forall i j, i < m /\ j ∈ row_cols R i <-> (i, j) ∈ epos <$> EM /\ (i, j) ∈ step_pos <$> meeting EA EB) /\
  forall i j v, i < m -> (j, v) ∈ row_entries R i -> sums ((if zeroed then [zero] else []) ++ products_at EA EB i j) v.
End Values.

(** The number of positions of the mask with a product. *)
Definition masked_count (EA EB EM : list (nat * nat * Z)) (c : nat) : Prop :=
  exists P, NoDup P /\ (forall x, x ∈ P <-> x ∈ epos <$> EM /\ x ∈ step_pos <$> meeting EA EB) /\ length P = c.

(** The sum of the 16-bit words modulo 65535, a zero only for a zero, subtracted from 65535. *)
Definition is_checksum (data : list N) (c : N) : Prop :=
  exists r, c = (65535 - r)%N /\ (r <= 65535)%N /\ (r = 0%N <-> word_sum data = 0%N) /\ (r mod 65535 = word_sum data mod 65535)%N.

(** The labels of the lines of a pass in order; whether the columns of the rows are in order; whether the sums start at zero.  (That the
    numbers of the algorithms MaskedHeap_v0, _v1, _v2 are one lower than these labels say is a finding.) *)
Definition all_lines : list (text * bool * bool) :=
  [(txt "MaskedSPASpGEMM CSR", false, false); (txt "innerSpGEMM_nohash<false-false> CSR/CSC", true, true);
   (txt "mxm_hash_mask CSR", false, false); (txt "mxm_hash_mask_wobin CSR", false, false);
   (txt "HeapSpGEMM<rowAlg::MaskedBasicHeap_v1> CSR", true, false); (txt "HeapSpGEMM<rowAlg::MaskedBasicHeap_v2> CSR", true, false);
   (txt "HeapSpGEMM<rowAlg::MaskedBasicHeap_v3> CSR", true, false);
   (txt "HeapSpGEMM<rowAlg::MCA_v1> CSR", true, false); (txt "HeapSpGEMM<rowAlg::MCA_v2> CSR", true, false); (txt "HeapSpGEMM<rowAlg::MCA_v3> CSR", true, false)]%string.
