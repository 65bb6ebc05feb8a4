(** C31, C33 and C42: conversion to compressed rows, row sorting, construction from triples.  Words
    used: [triples], [triples_csc], [sort_contract] (MatSpec), [wf], [wf_csc], [same_matrix],
    [row_entries], [col_entries] (Spec), [parfor_ends] (ParModel: whatever the assignment of the
    iterations to threads and whatever the interleaving, the parallel loop ends, without a fault, in
    the given memory), [parfor_race_free]. *)
From stdpp Require Import numbers sorting.
From Verif Require Import MatModel ParModel MatSpec MatStatements ScanModel Examples.
From Verif Require Import Base Spec.
From Coq Require Import ZArith.

(** C31.  Building a row matrix from a column matrix never faults and keeps the multiset of triples;
    the rows come out ordered by column, strictly if no position is stored twice. *)
Theorem C31_conversion :
  forall V (dflt : V) (B : csc V), wf_csc B ->
  exists A, csrOfCsc dflt B = Ok A /\ wf A /\ same_matrix A B /\ nnz A = c_nnz B /\
    triples A ≡ₚ triples_csc B /\
    forall i, i < rows A -> row_entries A i = csc_row B i /\ StronglySorted le (row_cols A i) /\
      (distinct_cols B -> StronglySorted lt (row_cols A i)).
Proof. intros V dflt B. exact (csrOfCsc_correct dflt B). Qed.
Print Assumptions C31_conversion.

(** C31, the constructor with a transpose flag: false gives the matrix, true its transpose. *)
Theorem C31_conversion_flag :
  forall V (dflt : V) (B : csc V) (t : bool), wf_csc B ->
  exists A, csrOfCscT dflt B t = Ok A /\ wf A /\ nnz A = c_nnz B /\
    (t = false -> same_matrix A B) /\
    (t = true -> rows A = c_cols B /\ cols A = c_rows B /\ forall i, row_entries A i = col_entries B i).
Proof. intros V dflt B t. exact (csrOfCscT_correct dflt B t). Qed.
Print Assumptions C31_conversion_flag.

Definition exC : csc Z := mkCsc 3 4 5 [0;2;2;4;5] [2;0;1;2;0] [5;6;7;8;9]%Z.
Example C31_example : wf_csc exC /\ distinct_cols exC /\
  csrOfCsc 0%Z exC = Ok (mkCsr 3 4 5 [0;2;3;5] [0;3;2;0;2] [6;9;7;5;8]%Z).
Proof.
  split; [prove_wf|]. split; [|vm_compute; reflexivity].
  intros j Hj. cbn in Hj. do 4 (destruct j as [|j]; [vm_compute; repeat constructor; rewrite ?elem_of_cons, ?elem_of_nil; lia|]). lia.
Qed.

(** C33.  For every function with the contract of std::sort, sorting the rows always ends in one and
    the same matrix; it is race free and the row pointers are untouched; each row is a permutation of
    what it was, ordered by column (strictly if its columns are distinct) and equal columns by value. *)
Theorem C33_sort_rows :
  forall V (ltV : V -> V -> Prop) (stdsort : list (nat * V) -> list (nat * V)), sort_contract ltV stdsort ->
  forall X : csr V, wf X ->
  exists X', sortIds_ends stdsort X X' /\
    (forall X'', sortIds_ends stdsort X X'' -> X'' = X') /\
    parfor_race_free (sortRow stdsort (rowptr X)) (rows X) (arrays (colids X) (values X)) /\
    wf X' /\ rowptr X' = rowptr X /\ rows X' = rows X /\ cols X' = cols X /\
    forall i, i < rows X -> row_entries X' i ≡ₚ row_entries X i /\ StronglySorted le (row_cols X' i) /\
      (forall p q x y, p < q -> row_entries X' i !! p = Some x -> row_entries X' i !! q = Some y -> ~ pair_lt ltV y x) /\
      (NoDup (row_cols X i) -> StronglySorted lt (row_cols X' i)).
Proof. intros V ltV stdsort Hs X. exact (sortIds_correct ltV stdsort Hs X). Qed.
Print Assumptions C33_sort_rows.

(** C33, the flag printed by Sorted: true exactly if every row is ordered by column (equal columns
    allowed). *)
Theorem C33_sorted_flag :
  forall V (X : csr V), wf X ->
  exists r, sortedFlag (rows X) (rowptr X) (colids X) = Ok r /\
    (r = true <-> forall i, i < rows X -> StronglySorted le (row_cols X i)).
Proof. intros V X. exact (sortedFlag_ok X). Qed.
Print Assumptions C33_sorted_flag.

(** A function with the contract: merge sort by (column, value). *)
Definition zle (x y : nat * Z) : Prop := fst x < fst y \/ (fst x = fst y /\ (snd x <= snd y)%Z).
Global Instance zle_dec : RelDecision zle.
Proof. intros x y. unfold zle. apply _. Defined.
Lemma zle_total : Total zle.
Proof. intros x y. unfold zle. lia. Qed.
Lemma zle_trans : Transitive zle.
Proof. intros x y z. unfold zle. lia. Qed.
Lemma merge_sort_contract : sort_contract Z.lt (merge_sort zle).
Proof.
  intros l. split; [apply merge_sort_Permutation|].
  pose proof zle_total. pose proof zle_trans. pose proof (StronglySorted_merge_sort zle l) as H1.
  revert H1. generalize (merge_sort zle l). intros t. induction 1 as [|a t Hs IH Hf]; intros i j x y Hij Hi Hj; [discriminate|].
  destruct i as [|i], j as [|j]; try lia.
  - simpl in Hi, Hj. injection Hi as <-. rewrite Forall_lookup in Hf. specialize (Hf _ _ Hj). unfold zle in Hf. unfold pair_lt. lia.
  - apply (IH i j); [lia|exact Hi|exact Hj].
Qed.
Definition exU : csr Z := mkCsr 3 4 6 [0;3;3;6] [3;0;2;1;1;0] [1;2;3;9;8;7]%Z.
Example C33_example : sort_contract Z.lt (merge_sort zle) /\ wf exU /\
  sortedFlag (rows exU) (rowptr exU) (colids exU) = Ok false /\
  merge_sort zle <$> (row_entries exU <$> [0;1;2]) = [[(0,2%Z);(2,3%Z);(3,1%Z)]; []; [(0,7%Z);(1,8%Z);(1,9%Z)]].
Proof. split; [apply merge_sort_contract|]. split; [prove_wf|]. split; vm_compute; reflexivity. Qed.

(** C42.  Building a column matrix from an array of triples whose indices are in range always ends in
    one and the same well-formed matrix, without a race; it stores exactly the given triples (equal
    positions are all kept, the addition operator is not applied) and its columns are ordered. *)
Theorem C42_from_triples :
  forall V (ltV : V -> V -> Prop) (dflt : V) (stdsort : list (nat * V) -> list (nat * V)), sort_contract ltV stdsort ->
  forall (its : list (nat * nat * V)) m n, Forall (fun x => fst (fst x) < m /\ snd (fst x) < n) its ->
  exists X, cscOfItems_ends dflt stdsort its (length its) m n X /\
    (forall X', cscOfItems_ends dflt stdsort its (length its) m n X' -> X' = X) /\
    wf_csc X /\ c_rows X = m /\ c_cols X = n /\ triples_csc X ≡ₚ its /\
    (forall j, j < n -> StronglySorted le (fst <$> col_entries X j)) /\
    forall cp arr, bucketItems dflt its (length its) n = Ok (cp, arr) ->
      parfor_race_free (sortCol stdsort cp) n
        (arrays (replicate (length its) 0) (replicate (length its) dflt) ∪ cells aSort ((fun x => CP (fst x) (snd x)) <$> arr)).
Proof.
  intros V ltV dflt stdsort Hs its m n Hall.
  destruct (cscOfItems_correct ltV stdsort Hs dflt its m n Hall) as (X & H1 & H2 & H3 & H4 & H5 & H6 & H7 & H8).
  exists X. do 7 (split; [assumption|]). intros cp arr Hb.
  rewrite (bucketItems_ok dflt its m n Hall) in Hb. injection Hb as Hcp <-. subst cp.
  assert (E : colptr X = Assemble.pre (MatProofs.bucket (to_items its)) <$> seq 0 (n + 1)).
  { destruct H1 as (_ & _ & _ & H1). destruct (Nat.ltb_spec 0 (length its)) as [|Hl].
    - destruct H1 as (arr & m' & Hb & _). rewrite (bucketItems_ok dflt its m n Hall) in Hb. congruence.
    - destruct H1 as (-> & _). destruct its; [|simpl in Hl; lia]. rewrite MatProofs.replicate_seq. apply list_fmap_ext. intros i x Hx.
      clear. induction x as [|x IH]; [reflexivity|]. rewrite Assemble.pre_S, <- IH. reflexivity. }
  rewrite E in H3. exact H3.
Qed.
Print Assumptions C42_from_triples.

(** C42, parallel arrays: the same for at least one entry and one row; otherwise the constructor stops
    on its assertion, so the empty matrix cannot be built this way. *)
Theorem C42_from_arrays :
  forall V (ltV : V -> V -> Prop) (dflt : V) (stdsort : list (nat * V) -> list (nat * V)), sort_contract ltV stdsort ->
  forall (ri ci : list nat) (val : list V) nz m n, length ri = nz -> length ci = nz -> length val = nz ->
  Forall (fun r => r < m) ri -> Forall (fun c => c < n) ci ->
  if decide (nz = 0 \/ m = 0) then forall X, cscOfArrays_ends dflt stdsort ri ci val nz m n X <-> X = Err AssertFail
  else exists X, (forall X', cscOfArrays_ends dflt stdsort ri ci val nz m n X' <-> X' = Ok X) /\
    wf_csc X /\ c_rows X = m /\ c_cols X = n /\ triples_csc X ≡ₚ zip (zip ri ci) val /\
    forall j, j < n -> StronglySorted le (fst <$> col_entries X j).
Proof.
  intros V ltV dflt stdsort Hs ri ci val nz m n H1 H2 H3 Hr Hc. unfold cscOfArrays_ends.
  destruct (decide (nz = 0 \/ m = 0)) as [Hz|Hz].
  - intros X. assert ((nz =? 0) || (m =? 0) = true) as -> by (rewrite orb_true_iff, !Nat.eqb_eq; exact Hz). reflexivity.
  - assert ((nz =? 0) || (m =? 0) = false) as -> by (rewrite orb_false_iff, !Nat.eqb_neq; lia).
    assert (Hl : length (zip (zip ri ci) val) = nz) by (rewrite !zip_with_length; lia).
    destruct (C42_from_triples V ltV dflt stdsort Hs (zip (zip ri ci) val) m n) as (X & E & U & W & R & C & T & S & _).
    + apply Forall_lookup. intros k [[r c] v] Hk. apply lookup_zip_with_Some in Hk as ([r' c'] & v' & Heq & Hrc & _). injection Heq as -> -> ->.
      apply lookup_zip_with_Some in Hrc as (r1 & c1 & Heq & Hr1 & Hc1). injection Heq as -> ->.
      rewrite Forall_lookup in Hr, Hc. split; [exact (Hr _ _ Hr1)|exact (Hc _ _ Hc1)].
    + rewrite Hl in E, U. exists X. split; [|auto]. intros X'. split.
      * intros (Y & -> & HY). f_equal. apply U, HY.
      * intros ->. exists X. auto.
Qed.
Print Assumptions C42_from_arrays.

Example C42_example : Forall (fun x => fst (fst x) < 3 /\ snd (fst x) < 4) [(2,0,5%Z);(0,3,9%Z);(1,2,7%Z);(2,0,4%Z)].
Proof. repeat constructor; cbn; lia. Qed.
