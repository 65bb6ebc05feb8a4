(** C35: Intersect and intersect. *)
From stdpp Require Import numbers.
From Verif Require MatStatements.
From Verif Require Import IsectModel BaseProofs ScanProofs LegacyScanProofs Assemble IsectProofs Examples.
From Verif Require Import Base Spec.

(** C35, for matrices with fewer than 2^17 - 1 rows: every run ends, without fault, with one and the same
    well-formed matrix, that holds exactly the common positions, with the combined values. *)
Theorem C35_intersect_partial :
  forall V (dflt : V) addop top nt (A B : csr V), wf A -> wf B -> sorted_rows A -> sorted_rows B ->
  rows A = rows B -> cols A = cols B -> (N.of_nat (rows A + 1) < 2 ^ 17)%N ->
  exists C, intersect_ends dflt addop top nt A B (Some C) /\
    (forall r, intersect_ends dflt addop top nt A B r -> r = Some C) /\
    wf C /\ rows C = rows A /\ cols C = cols A /\ sorted_rows C /\
    forall i c v, i < rows A ->
      ((c, v) ∈ row_entries C i <-> exists a b, (c, a) ∈ row_entries A i /\ (c, b) ∈ row_entries B i /\ v = addop a b).
Proof.
  intros V dflt addop top nt A B HA HB SA SB Hr Hc HN.
  destruct (intersect_main dflt addop top A B HA HB Hr nt Hc HN) as [H1 H2].
  exists (assemble (irow addop A B) (rows A) (cols A)). split; [exact H1|]. split; [exact H2|].
  assert (Hel : forall i c v, i < rows A -> ((c, v) ∈ irow addop A B i <-> exists a b, (c, a) ∈ row_entries A i /\ (c, b) ∈ row_entries B i /\ v = addop a b)).
  { intros i c v Hi. unfold irow. rewrite mrg_elem by (try apply SA; try apply SB; lia). split.
    - intros (c' & a & b & H3 & H4 & [= -> ->]). eauto.
    - intros (a & b & H3 & H4 & ->). eauto 10. }
  split; [|split; [reflexivity|split; [reflexivity|split]]].
  - apply assemble_wf. intros i c v Hi Hin. apply Hel in Hin as (a & b & Hin & _); [|exact Hi]. eapply row_entries_range; eauto.
  - intros i Hi. simpl in Hi. unfold row_cols. rewrite assemble_row by exact Hi. apply mrg_sorted, SA, Hi.
  - intros i c v Hi. rewrite assemble_row by exact Hi. apply Hel, Hi.
Qed.
Print Assumptions C35_intersect_partial.

(** Neither parallel loop can make two threads conflict. *)
Theorem C35_race_free :
  forall V (dflt : V) addop (A B C : csr V) is vs nz, wf A -> wf B -> rows A = rows B ->
  let m0 := isectMem (replicate (rows A) []) (replicate (rows A) []) (replicate (rows A) 0) in
  parfor_race_free (isectRow addop A B) (rows A) m0 /\
  (parfor_ends (isectRow addop A B) (rows A) m0 (isectMem is vs nz) ->
   rowptr C = (fun i => sum_list_with length (take i is)) <$> seq 0 (rows A + 1) -> get (rowptr C) (rows A) = Ok (nnz C) ->
   parfor_race_free (isectCopy (rowptr C)) (rows A) (copyMem (replicate (nnz C) 0) (replicate (nnz C) dflt) is vs)).
Proof.
  intros V dflt addop A B C is vs nz HA HB Hr m0. destruct (parfor_isect dflt addop A B HA HB Hr) as [P1 R1].
  destruct (parfor_copy dflt addop 0 A B Hr) as [_ R2]. split; [exact R1|]. intros Q1 Hrp Hg.
  pose proof (MatStatements.parfor_ends_unique _ _ _ _ _ Q1 P1) as E. apply is_inj in E as (-> & -> & _).
  assert (Hpre : forall i, i <= rows A -> sum_list_with length (take i ((fun i => fst <$> irow addop A B i) <$> seq 0 (rows A))) = pre (irow addop A B) i).
  { induction i as [|i IH]; intros Hi; [reflexivity|]. rewrite pre_S, <- IH by lia. rewrite (take_S_r _ i (fst <$> irow addop A B i)).
    - rewrite sum_list_with_app. simpl. rewrite fmap_length. lia.
    - rewrite seq_at, decide_True by lia. reflexivity. }
  assert (E : rowptr C = pre (irow addop A B) <$> seq 0 (rows A + 1)).
  { rewrite Hrp. apply list_eq. intros i. rewrite !seq_at. destruct (decide (i < rows A + 1)); [|reflexivity]. f_equal. apply Hpre. lia. }
  rewrite E in *. unfold get in Hg. rewrite seq_at, decide_True in Hg by lia. injection Hg as <-. exact R2.
Qed.
Print Assumptions C35_race_free.

(** Finding: from 2^17 - 1 rows on, the prefix sum reads row_nz[rows], one past the end of the array: a run with
    undefined behaviour exists for every pair of matrices of the same shape, sorted or not. *)
Theorem C35_large_refuted :
  forall V (dflt : V) addop top nt (A B : csr V), wf A -> wf B -> rows A = rows B -> cols A = cols B ->
  (2 ^ 17 <= N.of_nat (rows A + 1))%N -> 1 <= nt <= rows A + 1 ->
  (exists nz, length nz = rows A /\
   region_outcome (lRegion 0 Nat.add top nz (rows A + 1) nt) tt (lMem 0 (replicate (rows A + 1) (Some 0)) nt) (replicate nt tt) (Err OutOfBounds)) /\
  ~ (exists r, intersect_ends dflt addop top nt A B r).
Proof.
  intros V dflt addop top nt A B HA HB Hr Hc HN Hnt.
  destruct (intersect_large dflt addop top A B HA HB Hr nt Hc HN Hnt) as [H1 H2]. split; [|exact H2].
  eexists. split; [|exact H1]. apply nz1_length.
Qed.
Print Assumptions C35_large_refuted.

(** Different shapes: the default-constructed matrix. *)
Theorem C35_shape_mismatch :
  forall V (dflt : V) addop top nt (A B : csr V) r, rows A <> rows B \/ cols A <> cols B ->
  (intersect_ends dflt addop top nt A B r <-> r = None).
Proof.
  intros V dflt addop top nt A B r H. unfold intersect_ends.
  destruct (Nat.eqb_spec (rows A) (rows B)), (Nat.eqb_spec (cols A) (cols B)); simpl; tauto.
Qed.
Print Assumptions C35_shape_mismatch.

(** C35 for one column of a CSC matrix: the entries whose row occurs in ri, in order, at the front of the output
    arrays (which must be long enough), and their number. *)
Theorem C35_csc_intersect :
  forall V (ids_in : list nat) (vals_in : list V) ri ids_out vals_out,
  length vals_in = length ids_in -> StronglySorted lt ids_in -> StronglySorted lt ri ->
  let keep := filter (fun x : nat * V => fst x ∈ ri) (zip ids_in vals_in) in
  length keep <= length ids_out -> length keep <= length vals_out ->
  cscIntersect ids_in vals_in (length ids_in) ri (length ri) ids_out vals_out =
    Ok ((fst <$> keep) ++ drop (length keep) ids_out, (snd <$> keep) ++ drop (length keep) vals_out, length keep).
Proof.
  intros V ids_in vals_in ri ids_out vals_out Hl Hs1 Hs2 keep H1 H2.
  set (rb := (fun r => (r, tt)) <$> ri). set (ra := zip ids_in vals_in).
  assert (Lra : length ra = length ids_in) by (unfold ra; rewrite zip_with_length; lia).
  assert (Lrb : length rb = length ri) by (unfold rb; apply fmap_length).
  assert (Era : fst <$> ra = ids_in) by (unfold ra; apply fst_zip; lia).
  assert (Erb : fst <$> rb = ri) by (unfold rb; rewrite <- list_fmap_compose; apply list_fmap_id).
  assert (Hk : keep = mrg (fun (a : V) (_ : unit) => a) (S (length ids_in + length ri)) ra rb).
  { unfold keep. fold ra. apply (sorted_pairs_eq V).
    - rewrite <- Era in Hs1. clear -Hs1. induction ra as [|x ra IH]; [constructor|]. rewrite fmap_cons in Hs1. apply StronglySorted_inv in Hs1 as [Hs1 Hf].
      rewrite filter_cons. destruct (decide (fst x ∈ ri)); [|auto]. rewrite fmap_cons. constructor; [auto|]. rewrite Forall_forall in Hf |- *.
      intros y Hy. apply elem_of_list_fmap in Hy as (z & -> & Hz). apply elem_of_list_filter in Hz as [_ Hz]. apply Hf, elem_of_list_fmap_1, Hz.
    - apply mrg_sorted. rewrite Era. exact Hs1.
    - intros [c v]. rewrite elem_of_list_filter, mrg_elem by (rewrite ?Lra, ?Lrb, ?Era, ?Erb; auto; lia). simpl. split.
      + intros [Hc Hv]. exists c, v, tt. split; [exact Hv|]. split; [|reflexivity]. unfold rb. apply elem_of_list_fmap. eauto.
      + intros (c' & a & [] & Ha & Hb & [= -> ->]). split; [|exact Ha]. unfold rb in Hb. apply elem_of_list_fmap in Hb as (r & [= ->] & Hr). exact Hr. }
  unfold cscIntersect. rewrite (cscIsect_ok (fun a _ : V => a) (S (length ids_in + length ri)) ids_in vals_in ri 0 0 ra rb 0 ids_out vals_out) with (out := keep).
  - reflexivity.
  - lia.
  - lia.
  - lia.
  - intros p c v Hp. unfold ra in Hp. apply lookup_zip_with_Some in Hp as (x & y & [= -> ->] & Hx & Hy). auto.
  - intros p c u Hp. unfold rb in Hp. rewrite list_lookup_fmap in Hp. simpl. destruct (ri !! p); simpl in Hp; congruence.
  - exact Hk.
  - exact H1.
  - exact H2.
Qed.
Print Assumptions C35_csc_intersect.

(** Two 3 x 4 matrices, sums of the common entries; one column. *)
Example C35_example :
  (exists C, intersect_ends 0%Z Z.add 255 2 exB exM (Some C) /\ rowptr C = [0; 1; 2; 3] /\ colids C = [0; 1; 3] /\ values C = [2; 8; 2]%Z) /\
  cscIntersect [1; 4; 6]%nat [10; 40; 60]%Z 3 [0; 4; 5; 6] 4 [9; 9; 9; 9] [0; 0; 0; 0]%Z = Ok ([4; 6; 9; 9], [40; 60; 0; 0]%Z, 2).
Proof.
  split; [|reflexivity].
  destruct (intersect_main 0%Z Z.add 255 exB exM exB_wf exM_wf eq_refl 2 eq_refl eq_refl) as [H _].
  eexists. split; [exact H|]. vm_compute. auto.
Qed.
(** The large case is met by the 2^17 x 2^17 matrix without entries. *)
Definition emptyM (n : nat) : csr Z := mkCsr n n 0 (replicate (n + 1) 0) [] [].
Lemma emptyM_wf n : wf (emptyM n).
Proof.
  constructor; simpl.
  - apply replicate_length.
  - rewrite lookup_replicate_2 by lia. reflexivity.
  - intros i a b Ha Hb. apply lookup_replicate in Ha as [-> _]. apply lookup_replicate in Hb as [-> _]. lia.
  - rewrite lookup_replicate_2 by lia. reflexivity.
  - reflexivity.
  - reflexivity.
  - intros p c Hp. discriminate.
Qed.
Example C35_large_example : ~ (exists r, intersect_ends 0%Z Z.add 255 4 (emptyM (N.to_nat (2 ^ 17))) (emptyM (N.to_nat (2 ^ 17))) r).
Proof.
  apply C35_large_refuted; try apply emptyM_wf; try reflexivity; unfold emptyM; cbn [rows]; change (2 ^ 17)%N with 131072%N; lia.
Qed.
