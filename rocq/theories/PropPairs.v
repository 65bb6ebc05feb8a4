(** C75 and C76: a column matrix from a list of edges, and merging of equal positions (CSC.h).  Words used:
    [triples_csc] (MatSpec), [wf_csc], [col_entries] (Spec), [parfor_ends], [parfor_race_free] (ParModel). *)
From stdpp Require Import numbers sorting.
From Verif Require Import MatModel PairsModel ParModel MatSpec ScanModel Examples PairsProofs MergeProofs MergeLoops.
From Verif Require Import Base Spec.
From Coq Require Import ZArith.

(** C75.  Building a column matrix from the first [nz] edges of a list, all in range, always ends in one and the same
    well-formed matrix, without a race in either loop; it stores the value 1 for every edge (equal edges are all kept)
    and its columns are ordered. *)
Theorem C75_from_pairs :
  forall V (dflt one : V) (ssort : list nat -> list nat), (forall l, ssort l ≡ₚ l /\ StronglySorted le (ssort l)) ->
  forall (edges : list (nat * nat)) nz m n, nz <= length edges -> Forall (fun e => fst e < m /\ snd e < n) (take nz edges) ->
  exists X, cscOfPairs_ends dflt one ssort edges nz m n X /\
    (forall X', cscOfPairs_ends dflt one ssort edges nz m n X' -> X' = X) /\
    wf_csc X /\ c_rows X = m /\ c_cols X = n /\
    triples_csc X ≡ₚ (fun e => (fst e, snd e, one)) <$> take nz edges /\
    (forall j, j < n -> StronglySorted le (fst <$> col_entries X j)) /\
    forall ids, bucketPairs edges nz n = Ok (colptr X, ids) ->
      parfor_race_free (sortIdsCol ssort (colptr X)) n (arrays ids (replicate nz dflt)) /\
      forall m1, parfor_ends (sortIdsCol ssort (colptr X)) n (arrays ids (replicate nz dflt)) m1 -> parfor_race_free (setOne one) nz m1.
Proof.
  intros V dflt one ssort Hs edges nz m n Hnz Hall.
  destruct (cscOfPairs_correct dflt one ssort (fun l => proj1 (Hs l)) (fun l => proj2 (Hs l)) edges nz m n Hnz Hall) as (X & H1 & H2 & H3 & H4 & H5 & H6 & H7 & H8).
  exists X. do 7 (split; [assumption|]). exact H3.
Qed.
Print Assumptions C75_from_pairs.

(** Hypotheses are reachable: four edges, one of them twice, and a fifth that is not used. *)
Definition exEdges : list (nat * nat) := [(2, 0); (0, 1); (1, 0); (2, 0); (9, 9)].
Example C75_hyps : (forall l, merge_sort le l ≡ₚ l /\ StronglySorted le (merge_sort le l)) /\
  4 <= length exEdges /\ Forall (fun e => fst e < 3 /\ snd e < 2) (take 4 exEdges).
Proof.
  split; [intros l; split; [apply merge_sort_Permutation|apply (StronglySorted_merge_sort le)]|].
  split; [simpl; lia|]. repeat constructor; simpl; lia.
Qed.
Example C75_example : exists X, cscOfPairs_ends 0%Z 1%Z (merge_sort le) exEdges 4 3 2 X /\
  triples_csc X ≡ₚ [(2, 0, 1%Z); (0, 1, 1%Z); (1, 0, 1%Z); (2, 0, 1%Z)].
Proof.
  destruct C75_hyps as (H1 & H2 & H3). destruct (C75_from_pairs Z 0%Z 1%Z _ H1 exEdges 4 3 2 H2 H3) as (X & E & _ & _ & _ & _ & T & _). exists X. auto.
Qed.

(** C76, the function as written: the vectors of rows and values have no element, and the last loop takes the begin of
    element i for every column i.  So no execution on a matrix with at least one column ends well. *)
Theorem C76_merge_refuted :
  forall V (dflt : V) (add : V -> V -> V) (X X' : csc V), 0 < c_cols X -> ~ mergeDuplicates_ends dflt add X X'.
Proof. intros V dflt add X X' H. exact (mergeN_short dflt add 0 X X' H). Qed.
Print Assumptions C76_merge_refuted.

(** The same for every number of elements below the number of columns. *)
Theorem C76_too_few_vectors :
  forall V (dflt : V) (add : V -> V -> V) nv (X X' : csc V), nv < c_cols X -> ~ mergeN_ends dflt add nv X X'.
Proof. intros V dflt add nv X X' H. exact (mergeN_short dflt add nv X X' H). Qed.
Print Assumptions C76_too_few_vectors.

(** C76 for vectors with one element for every column (missing in the code): merging always ends in one and the same
    well-formed matrix, without a race; if the columns are ordered, every column of the result is strictly ordered, has
    the same rows, and holds for every row the values stored there, added up in the order of storage. *)
Theorem C76_merge_partial :
  forall V (dflt : V) (add : V -> V -> V) (X : csc V), wf_csc X ->
  (forall j, j < c_cols X -> StronglySorted le (fst <$> col_entries X j)) ->
  exists X', mergeN_ends dflt add (c_cols X) X X' /\ (forall X2, mergeN_ends dflt add (c_cols X) X X2 -> X2 = X') /\
    wf_csc X' /\ c_rows X' = c_rows X /\ c_cols X' = c_cols X /\
    (forall j, j < c_cols X -> StronglySorted lt (fst <$> col_entries X' j) /\
       (forall r, r ∈ fst <$> col_entries X' j <-> r ∈ fst <$> col_entries X j) /\
       forall r v, (r, v) ∈ col_entries X' j ->
         exists v0 rest, snd <$> filter (fun x => fst x = r) (col_entries X j) = v0 :: rest /\ v = fold_left add rest v0) /\
    forall diff m1, adjacentDifference (colptr X) (c_cols X) = Ok diff ->
      parfor_race_free (mergeBody add (c_cols X) X) (c_cols X) (mergeMem (c_cols X) diff) /\
      (parfor_ends (mergeBody add (c_cols X) X) (c_cols X) (mergeMem (c_cols X) diff) m1 ->
       parfor_race_free (copyBody (c_cols X) (colptr X')) (c_cols X) (newArrays (replicate (c_nnz X') 0) (replicate (c_nnz X') dflt) ∪ m1)).
Proof.
  intros V dflt add X Hw Hs. destruct (mergeN_correct dflt add X Hw) as (X' & H1 & H2 & H3 & H4 & H5 & H6 & H7).
  exists X'. do 5 (split; [assumption|]). split; [|exact H3]. intros j Hj. rewrite (H7 j Hj). exact (merged_spec add _ (Hs j Hj)).
Qed.
Print Assumptions C76_merge_partial.

(** C76: a matrix without columns is the only case in which the function as written ends, and it changes nothing. *)
Theorem C76_no_columns :
  forall V (dflt : V) (add : V -> V -> V) (X : csc V), wf_csc X -> c_cols X = 0 -> forall X', mergeDuplicates_ends dflt add X X' <-> X' = X.
Proof.
  intros V dflt add X Hw H0 X'. destruct (mergeN_correct dflt add X Hw) as (Y & H1 & H2 & _ & H4 & H5 & H6 & _). unfold mergeDuplicates_ends. rewrite H0 in H1, H2.
  assert (Y = X) as ->; [|split; [apply H2|intros ->; exact H1]].
  assert (E : csc_tr Y = csc_tr X).
  { apply Assemble.wf_ext; [exact H4|exact Hw|exact H6|exact H5|]. simpl. intros i Hi. lia. }
  destruct X, Y. unfold csc_tr in E. simpl in E. injection E as -> -> -> -> -> ->. reflexivity.
Qed.
Print Assumptions C76_no_columns.

(** Hypotheses are reachable: a column with a row stored three times, an empty column and a third one. *)
Definition exDup : csc Z := mkCsc 3 3 6 [0; 4; 4; 6] [0; 2; 2; 2; 1; 1] [7; 10; 20; 30; 1; -5]%Z.
Example C76_hyps : wf_csc exDup /\ 0 < c_cols exDup /\ forall j, j < c_cols exDup -> StronglySorted le (fst <$> col_entries exDup j).
Proof.
  split; [unfold wf_csc; prove_wf|]. split; [simpl; lia|]. intros j Hj. simpl in Hj.
  destruct j as [|[|[|j]]]; [..|lia]; vm_compute; repeat constructor.
Qed.
Example C76_example : exists X', mergeN_ends 0%Z Z.add 3 exDup X' /\
  col_entries X' 0 = [(0, 7%Z); (2, 60%Z)] /\ col_entries X' 1 = [] /\ col_entries X' 2 = [(1, (-4)%Z)].
Proof.
  destruct C76_hyps as (H1 & _). destruct (mergeN_correct 0%Z Z.add exDup H1) as (X' & E & _ & _ & _ & _ & _ & C). exists X'.
  split; [exact E|]. rewrite !C by (simpl; lia). vm_compute. auto.
Qed.
