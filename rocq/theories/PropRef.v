(** C64: submatrices. *)
From stdpp Require Import numbers list_numbers.
From Verif Require Import MatModel BaseProofs ScanProofs WorkProofs Assemble MatProofs BitModel BitSpec BitProofs RefModel RefSpec RefProofs Examples.
From Verif Require Import Base Spec.

Section C64.
Context {V : Type} (dflt : V).
Notation ent := (nat * V)%type.

Lemma lt_le (l : list nat) b : Forall (fun c => c < b) l -> Forall (fun c => c <= b) l.
Proof. intros H. eapply Forall_impl; [exact H|]. simpl. intros; lia. Qed.
Lemma set_zero n : set_ (replicate (n + 1) 0) 0 0 = Ok (replicate (n + 1) 0).
Proof. rewrite set_Ok by (rewrite replicate_length; lia). rewrite Nat.add_1_r. reflexivity. Qed.
Lemma newCsc_rows nz m n : newCsc dflt nz m n = newCsc dflt nz 0 n.
Proof. reflexivity. Qed.

Lemma spRef_ok (X : csc V) (ri ci : list nat) : wf_csc X -> sorted_cols X -> StronglySorted le ri -> Forall (fun r => r <= c_rows X) ri ->
  Forall (fun c => c < c_cols X) ci ->
  if decide (0 < pre (chosen X ci (picked ri)) (length ci))
  then exists R, spRef dflt X ri ci = Ok R /\ sub_of (picked ri) X ri ci R
  else spRef dflt X ri ci = Err AssertFail.
Proof.
  intros Hw Hs Hr Hrb Hci. unfold spRef. rewrite (backCheck_forall ci (c_cols X)) by (apply lt_le, Hci). rewrite bind_Ok.
  rewrite (backCheck_forall ri (c_rows X)) by exact Hrb. rewrite bind_Ok.
  rewrite (count_cols X ci (picked ri)).
  2:{ intros i n Hi. destruct (col_bounds X ci (picked ri) Hw Hci i Hi) as (c & b & e & Hc & Hlt & Hb & He & Hbe & Hz & Hseg & ->).
      rewrite (get_Some _ _ _ Hc), bind_Ok, (get_Some _ _ _ Hb), bind_Ok, (get_Some _ _ _ He), bind_Ok. rewrite Hseg.
      apply (refCount_ok X ri e Hz); [exact Hr| |lia]. rewrite <- Hseg. apply Hs, Hlt. }
  rewrite bind_Ok, newCsc_rows. destruct (decide _) as [Hp|Hp].
  - rewrite newCsc_ok by exact Hp. rewrite bind_Ok, set_zero, bind_Ok.
    replace (0, replicate (pre (chosen X ci (picked ri)) (length ci)) 0, replicate (pre (chosen X ci (picked ri)) (length ci)) dflt)
      with (outp dflt (pre (chosen X ci (picked ri)) (length ci)) []) by (unfold outp; simpl; rewrite Nat.sub_0_r; reflexivity).
    rewrite (fill_cols dflt X ci (picked ri)).
    + rewrite bind_Ok, outp_all. eexists. split; [reflexivity|]. apply sub_result; [exact Hw|]. apply picked_sub.
    + intros i cp L Hi Hn. destruct (col_bounds X ci (picked ri) Hw Hci i Hi) as (c & b & e & Hc & Hlt & Hb & He & Hbe & Hz & Hseg & E).
      rewrite (get_Some _ _ _ Hc), bind_Ok, (get_Some _ _ _ Hb), bind_Ok, (get_Some _ _ _ He), bind_Ok. rewrite E, Hseg in Hn |- *.
      pose proof (refFill_ok dflt X ri e (pre (chosen X ci (picked ri)) (length ci)) Hz (S (e - b + length ri)) b 0 L) as F. rewrite !drop_0 in F.
      rewrite F; [reflexivity|exact Hr| |lia|exact Hn]. rewrite <- Hseg. apply Hs, Hlt.
  - unfold newCsc. destruct (Nat.eqb_spec (pre (chosen X ci (picked ri)) (length ci)) 0); [|lia]. reflexivity.
Qed.

(** SpRef takes, for every chosen column, the entries in the chosen rows (a repeated row once for each repetition), if
    there are any at all. *)
Theorem C64_spref (X : csc V) (ri ci : list nat) : wf_csc X -> sorted_cols X -> StronglySorted le ri -> Forall (fun r => r <= c_rows X) ri ->
  Forall (fun c => c < c_cols X) ci -> (exists c, c ∈ ci /\ picked ri (col_entries X c) <> []) ->
  exists R, spRef dflt X ri ci = Ok R /\ sub_of (picked ri) X ri ci R.
Proof.
  intros Hw Hs Hr Hrb Hci He. pose proof (spRef_ok X ri ci Hw Hs Hr Hrb Hci) as H. apply chosen_pos in He. rewrite decide_True in H by exact He. exact H.
Qed.

(** FINDING.  If no entry is chosen, the program stops at the assertion of the constructor. *)
Theorem C64_empty_refuted (X : csc V) (ri ci : list nat) : wf_csc X -> sorted_cols X -> StronglySorted le ri -> Forall (fun r => r <= c_rows X) ri ->
  Forall (fun c => c < c_cols X) ci -> (forall c, c ∈ ci -> picked ri (col_entries X c) = []) -> spRef dflt X ri ci = Err AssertFail.
Proof.
  intros Hw Hs Hr Hrb Hci He. pose proof (spRef_ok X ri ci Hw Hs Hr Hrb Hci) as H. rewrite decide_False in H; [exact H|].
  intros Hp. apply chosen_pos in Hp as (c & Hc & Hn). apply Hn, He, Hc.
Qed.

Lemma elem_picked ri (col : list ent) e : e ∈ picked ri col <-> e ∈ col /\ fst e ∈ ri.
Proof.
  unfold picked. rewrite elem_of_list_join. split.
  - intros (l & He & Hl). apply elem_of_list_fmap in Hl as (r & -> & Hr). apply elem_of_list_filter in He as [<- He]. auto.
  - intros [He Hr]. exists (filter (fun x => fst x = fst e) col). split; [apply elem_of_list_filter; auto|]. apply elem_of_list_fmap. eauto.
Qed.

(** For the first [m] rows the result is the submatrix. *)
Theorem C64_prefix (X : csc V) (m : nat) (ci : list nat) : wf_csc X -> sorted_cols X -> m <= c_rows X -> Forall (fun c => c < c_cols X) ci ->
  (exists c r v, c ∈ ci /\ (r, v) ∈ col_entries X c /\ r < m) ->
  exists R, spRef dflt X (seq 0 m) ci = Ok R /\ wf_csc R /\ c_rows R = m /\ c_cols R = length ci /\
    forall i c r v, ci !! i = Some c -> ((r, v) ∈ col_entries R i <-> (r, v) ∈ col_entries X c /\ r < m).
Proof.
  intros Hw Hs Hm Hci (c0 & r0 & v0 & Hc0 & He0 & Hr0).
  assert (Sq : forall n a, StronglySorted le (seq a n)).
  { induction n as [|n IH]; intros a; [constructor|]. simpl. constructor; [apply IH|]. apply Forall_forall. intros x Hx. apply elem_of_seq in Hx. lia. }
  destruct (C64_spref X (seq 0 m) ci Hw Hs (Sq m 0)) as (R & HR & [R1 R2 R3 R4]); [|exact Hci| |].
  { apply Forall_forall. intros x Hx. apply elem_of_seq in Hx. lia. }
  { exists c0. split; [exact Hc0|]. intros E. assert (H : (r0, v0) ∈ picked (seq 0 m) (col_entries X c0)) by (apply elem_picked; split; [exact He0|apply elem_of_seq; simpl; lia]).
    rewrite E in H. inversion H. }
  rewrite seq_length in R1. assert (Hcol : forall i c r v, ci !! i = Some c -> ((r, v) ∈ col_entries R i <-> (r, v) ∈ col_entries X c /\ r < m)).
  { intros i c r v Hc. rewrite (R4 i c Hc), elem_picked. simpl. rewrite elem_of_seq. split; intros [? ?]; (split; [assumption|lia]). }
  exists R. split; [exact HR|]. split_and!; [|exact R1|exact R2|exact Hcol].
  unfold wf_csc in *. destruct R3 as [W1 W2 W3 W4 W5 W6 W7]. constructor; try assumption.
  intros p r Hp. cbn [csc_tr colids values rowptr rows nnz cols c_rows c_cols c_nnz colptr rowids c_values] in *.
  destruct (lookup_lt_is_Some_2 (c_values R) p) as [v Hv]. { rewrite W6, <- W5. eapply lookup_lt_Some, Hp. }
  set (Y := mkCsr (c_cols R) (c_rows X) (c_nnz R) (colptr R) (rowids R) (c_values R)). assert (HY : wf Y) by (constructor; assumption).
  pose proof (wf_rowsOf Y (c_cols R) HY (le_n _)) as E. pose proof (wf_pre Y (c_cols R) HY (le_n _)) as P. simpl in P. rewrite W4 in P. injection P as P.
  rewrite take_ge in E by (rewrite <- P, zip_with_length; simpl; lia).
  assert (Hz : (r, v) ∈ zip (rowids R) (c_values R)) by (eapply elem_of_list_lookup_2, lookup_zip_with_Some; exists r, v; eauto).
  simpl in E. rewrite <- E in Hz. apply rowsOf_elem in Hz as (i & Hi & Hin). rewrite R2 in Hi.
  destruct (lookup_lt_is_Some_2 ci i Hi) as [c Hc]. destruct (proj1 (Hcol i c r v Hc) Hin) as [_ Hlt]. rewrite R1. exact Hlt.
Qed.

(** FINDING.  The chosen rows are not renumbered: as soon as a chosen row with an entry has an id not below the number of
    chosen rows, the result is not a matrix of its own size. *)
Theorem C64_renumber_refuted (X : csc V) (ri ci : list nat) c r v R : spRef dflt X ri ci = Ok R -> wf_csc X -> sorted_cols X -> StronglySorted le ri ->
  Forall (fun r => r <= c_rows X) ri -> Forall (fun c => c < c_cols X) ci -> c ∈ ci -> (r, v) ∈ col_entries X c -> r ∈ ri -> length ri <= r -> ~ wf_csc R.
Proof.
  intros HR Hw Hs Hr Hrb Hci Hc He Hin Hl HwR.
  destruct (C64_spref X ri ci Hw Hs Hr Hrb Hci) as (R' & HR' & [R1 R2 R3 R4]).
  { exists c. split; [exact Hc|]. intros E. assert (H : (r, v) ∈ picked ri (col_entries X c)) by (apply elem_picked; auto). rewrite E in H. inversion H. }
  rewrite HR in HR'. injection HR' as <-. apply elem_of_list_lookup in Hc as [i Hi].
  assert (H : (r, v) ∈ col_entries R i) by (rewrite (R4 i c Hi); apply elem_picked; auto).
  apply (row_entries_range _ _ _ _ HwR) in H. cbn [csc_tr cols] in H. lia.
Qed.

Lemma for_n_app {S} a b lo (body : nat -> S -> res S) s : for_n (a + b) lo body s = (s' <- for_n a lo body s ;; for_n b (lo + a) body s').
Proof.
  revert lo s. induction a as [|a IH]; intros lo s; [simpl; rewrite Nat.add_0_r; reflexivity|]. simpl. destruct (body lo s) as [s'|]; [|reflexivity]. simpl.
  rewrite IH. replace (Datatypes.S lo + a) with (lo + Datatypes.S a) by lia. reflexivity.
Qed.

(** FINDING.  The test of the column ids lets the number of columns pass, and colptr is read out of bounds. *)
Theorem C64_bounds_refuted (X : csc V) (ri ci : list nat) : wf_csc X -> sorted_cols X -> StronglySorted le ri -> Forall (fun r => r <= c_rows X) ri ->
  Forall (fun c => c < c_cols X) ci -> spRef dflt X ri (ci ++ [c_cols X]) = Err OutOfBounds.
Proof.
  intros Hw Hs Hr Hrb Hci. unfold spRef. rewrite backCheck_ok by (intros x; rewrite last_snoc; intros [= <-]; lia).
  rewrite bind_Ok, (backCheck_forall ri (c_rows X)) by exact Hrb. rewrite bind_Ok. unfold for_ at 1. rewrite Nat.sub_0_r, app_length. simpl length. rewrite for_n_app.
  assert (Hci' : Forall (fun c => c < c_cols X) ci) by exact Hci.
  match goal with |- context [for_n (length ci) 0 ?bd 0] => destruct (for_n_inv (fun _ _ => True) bd (length ci) 0 0) as (n & -> & _) end; [exact I| |].
  { intros i n Hi _. destruct (col_bounds X ci (picked ri) Hw Hci i ltac:(lia)) as (c & b & e & Hc & Hlt & Hb & He & Hbe & Hz & Hseg & _).
    rewrite (get_Some (ci ++ _) i c) by (apply lookup_app_l_Some, Hc). rewrite bind_Ok, (get_Some _ _ _ Hb), bind_Ok, (get_Some _ _ _ He), bind_Ok.
    eexists. split; [|exact I]. apply (refCount_ok X ri e Hz); [exact Hr| |lia]. rewrite <- Hseg. apply Hs, Hlt. }
  rewrite bind_Ok. simpl for_n. rewrite (get_Some (ci ++ _) (length ci) (c_cols X)) by (rewrite lookup_app_r, Nat.sub_diag by lia; reflexivity). rewrite bind_Ok.
  destruct (wf_lookup (csc_tr X) (c_cols X) Hw (le_n _)) as [p Hp]. cbn [csc_tr rowptr] in Hp. rewrite (get_Some _ _ _ Hp), bind_Ok.
  unfold get at 1. rewrite (lookup_ge_None_2 (colptr X) (c_cols X + 1)); [reflexivity|]. pose proof (wf_len _ Hw) as H. cbn [csc_tr rowptr rows] in H. lia.
Qed.

(** SpRef1. *)
Definition room (n : nat) : nat := 64 * ((n + 63) / 64).
Lemma bmap_ok (ri : list nat) : Forall (fun r => r < room (length ri)) ri ->
  exists m0 m, bmReset (bmNew (length ri)) = Ok m0 /\ foldM bmSet ri m0 = Ok m /\ forall r, r < room (length ri) -> bmGet m r = Ok (bool_decide (r ∈ ri)).
Proof.
  intros H. unfold room in *. rewrite bmReset_ok. unfold bmNew. rewrite replicate_length.
  assert (HR : ready (replicate ((length ri + 63) / 64) (Some 0%N))) by (apply Forall_replicate; exists 0%N; split; [reflexivity|lia]).
  destruct (bmSets_ok _ ri HR) as (m & Hm & Hr & Hl & Hs); [rewrite replicate_length; exact H|]. rewrite replicate_length in Hl, Hs.
  exists (replicate ((length ri + 63) / 64) (Some 0%N)), m. split; [reflexivity|]. split; [exact Hm|]. intros r Hlt.
  destruct (bmGet_isset m r Hr) as (b & -> & Hb); [rewrite Hl; exact Hlt|]. f_equal. apply eq_bool_prop_intro.
  rewrite !Is_true_true, Hb, bool_decide_eq_true, Hs by exact Hlt. split; [|tauto]. intros [|(x & Hx & Ht)]; [assumption|].
  apply lookup_replicate_1 in Hx as [E _]. injection E as ->. rewrite N.bits_0 in Ht. discriminate.
Qed.

Lemma spRef1_ok (X : csc V) (ri ci : list nat) : wf_csc X -> c_rows X <= room (length ri) -> Forall (fun r => r < c_rows X) ri -> Forall (fun c => c < c_cols X) ci ->
  if decide (0 < pre (chosen X ci (rows_in ri)) (length ci))
  then exists R, spRef1 dflt X ri ci = Ok R /\ sub_of (rows_in ri) X ri ci R
  else spRef1 dflt X ri ci = Err AssertFail.
Proof.
  intros Hw Hro Hrb Hci. unfold spRef1. rewrite (backCheck_forall ci (c_cols X)) by (apply lt_le, Hci). rewrite bind_Ok.
  rewrite (backCheck_forall ri (c_rows X)) by (apply lt_le, Hrb). rewrite bind_Ok.
  destruct (bmap_ok ri) as (m0 & bm & -> & Hbm & Hget); [eapply Forall_impl; [exact Hrb|simpl; intros; lia]|]. rewrite bind_Ok, Hbm, bind_Ok.
  assert (Hrange : forall j x, zip (rowids X) (c_values X) !! j = Some x -> fst x < room (length ri)).
  { intros j x Hx. apply seg_lookup in Hx as [Hx _]. pose proof (wf_range _ Hw j (fst x) Hx) as H. cbn [csc_tr cols] in H. lia. }
  rewrite (count_cols X ci (rows_in ri)).
  2:{ intros i n Hi. destruct (col_bounds X ci (rows_in ri) Hw Hci i Hi) as (c & b & e & Hc & Hlt & Hb & He & Hbe & Hz & Hseg & ->).
      rewrite (get_Some _ _ _ Hc), bind_Ok, (get_Some _ _ _ He), bind_Ok, (get_Some _ _ _ Hb), bind_Ok. rewrite Hseg.
      rewrite (for_foldM (zip (rowids X) (c_values X)) _ (fun n x => Ok (if bool_decide (fst x ∈ ri) then n + 1 else n)) b e n Hz Hbe).
      2:{ intros j x s Hj Hx. rewrite (get_Some _ _ _ (proj1 (seg_lookup X j x Hx))), bind_Ok, (Hget _ (Hrange j x Hx)). reflexivity. }
      fold (seg (zip (rowids X) (c_values X)) b e). generalize (seg (zip (rowids X) (c_values X)) b e) as l. clear. intros l. revert n.
      induction l as [|x l IH]; intros n; [simpl; f_equal; lia|]. cbn [foldM]. rewrite bind_Ok, IH. unfold rows_in. rewrite filter_cons.
      case_bool_decide; [rewrite decide_True by assumption|rewrite decide_False by assumption]; simpl; f_equal; lia. }
  rewrite bind_Ok, newCsc_rows. destruct (decide _) as [Hp|Hp].
  - rewrite newCsc_ok by exact Hp. rewrite bind_Ok, set_zero, bind_Ok. set (nz := pre (chosen X ci (rows_in ri)) (length ci)) in *.
    replace (0, replicate nz 0, replicate nz dflt) with (outp dflt nz []) by (unfold outp; simpl; rewrite Nat.sub_0_r; reflexivity).
    rewrite (fill_cols dflt X ci (rows_in ri)).
    + rewrite bind_Ok, outp_all. eexists. split; [reflexivity|]. apply sub_result; [exact Hw|]. apply rows_in_sub.
    + fold nz. intros i cp L Hi Hn. destruct (col_bounds X ci (rows_in ri) Hw Hci i Hi) as (c & b & e & Hc & Hlt & Hb & He & Hbe & Hz & Hseg & E).
      rewrite (get_Some _ _ _ Hc), bind_Ok, (get_Some _ _ _ He), bind_Ok, (get_Some _ _ _ Hb), bind_Ok. rewrite E, Hseg in Hn |- *.
      match goal with |- context [for_ b e ?bd _] => rewrite (for_foldM (zip (rowids X) (c_values X)) bd (fun '(idx, ids, vals) x =>
        if bool_decide (fst x ∈ ri) then vals <- set_ vals idx (snd x) ;; ids <- set_ ids idx (fst x) ;; Ok (idx + 1, ids, vals) else Ok (idx, ids, vals)) b e _ Hz Hbe) end.
      2:{ intros j x [[idx ids] vals] Hj Hx. rewrite (get_Some _ _ _ (proj1 (seg_lookup X j x Hx))), bind_Ok, (Hget _ (Hrange j x Hx)), bind_Ok.
          case_bool_decide; [|reflexivity]. rewrite (get_Some _ _ _ (proj2 (seg_lookup X j x Hx))), bind_Ok. reflexivity. }
      fold (seg (zip (rowids X) (c_values X)) b e) in *. revert Hn. generalize (seg (zip (rowids X) (c_values X)) b e) as l. generalize nz as k. clear. intros k l Hn.
      match goal with |- context [foldM ?g l _] => assert (F : foldM g l (outp dflt k L) = Ok (outp dflt k (L ++ rows_in ri l))) end.
      { revert L Hn. induction l as [|x l IH]; intros L Hn; [simpl; unfold rows_in; simpl; rewrite app_nil_r; reflexivity|]. cbn [foldM]. unfold rows_in in Hn |- *.
        rewrite filter_cons in Hn |- *. unfold outp at 1. case_bool_decide; [rewrite decide_True in Hn |- * by assumption|rewrite decide_False in Hn |- * by assumption].
        - simpl in Hn. rewrite (put snd dflt L k x) by lia. rewrite bind_Ok, (put fst 0 L k x) by lia. rewrite !bind_Ok.
          replace (length L + 1) with (length (L ++ [x])) by (rewrite app_length; reflexivity). rewrite (cons_middle x L (filter _ _)), (app_assoc L).
          apply IH. rewrite app_length. simpl. unfold rows_in. lia.
        - rewrite bind_Ok. apply IH, Hn. }
      rewrite F, bind_Ok. reflexivity.
  - unfold newCsc. destruct (Nat.eqb_spec (pre (chosen X ci (rows_in ri)) (length ci)) 0); [|lia]. reflexivity.
Qed.

(** SpRef1 takes, for every chosen column, the entries in the chosen rows (each once), if there are any and the bit map,
    which has one bit for each chosen row rounded up to words, covers all rows of the matrix. *)
Theorem C64_spref1_partial (X : csc V) (ri ci : list nat) : wf_csc X -> c_rows X <= 64 * ((length ri + 63) / 64) -> Forall (fun r => r < c_rows X) ri ->
  Forall (fun c => c < c_cols X) ci -> (exists c, c ∈ ci /\ rows_in ri (col_entries X c) <> []) ->
  exists R, spRef1 dflt X ri ci = Ok R /\ sub_of (rows_in ri) X ri ci R.
Proof.
  intros Hw Hr Hrb Hci He. pose proof (spRef1_ok X ri ci Hw Hr Hrb Hci) as H. apply chosen_pos in He. rewrite decide_True in H by exact He. exact H.
Qed.

(** FINDING.  A chosen row past the bit map is set out of bounds: the map has as many bits as there are chosen rows, not
    as there are rows. *)
Theorem C64_bitmap_refuted (X : csc V) (ri ci : list nat) r : Forall (fun r => r <= c_rows X) ri -> Forall (fun c => c <= c_cols X) ci ->
  r ∈ ri -> 64 * ((length ri + 63) / 64) <= r -> spRef1 dflt X ri ci = Err OutOfBounds.
Proof.
  intros Hrb Hci Hin Hr. unfold spRef1. rewrite (backCheck_forall ci (c_cols X) Hci), bind_Ok, (backCheck_forall ri (c_rows X) Hrb), bind_Ok.
  rewrite bmReset_ok, bind_Ok. unfold bmNew. rewrite replicate_length.
  assert (HR : ready (replicate ((length ri + 63) / 64) (Some 0%N))) by (apply Forall_replicate; exists 0%N; split; [reflexivity|lia]).
  assert (F : forall l m, r ∈ l -> ready m -> length m = (length ri + 63) / 64 -> foldM bmSet l m = Err OutOfBounds).
  { clear HR Hin. induction l as [|x l IH]; intros m Hin HR Hl; [inversion Hin|]. cbn [foldM].
    destruct (Nat.lt_ge_cases x (64 * length m)) as [Hx|Hx].
    - destruct (bmSet_ok m x HR Hx) as (m' & -> & HR' & Hl' & _). rewrite bind_Ok. apply IH; [|exact HR'|congruence].
      apply elem_of_cons in Hin as [->|Hin]; [rewrite Hl in Hx; lia|exact Hin].
    - unfold bmSet, getI. rewrite lookup_ge_None_2; [reflexivity|]. apply Nat.div_le_lower_bound; lia. }
  rewrite F; [reflexivity|exact Hin|exact HR|apply replicate_length].
Qed.

(** SpRef2. *)
Lemma intersect_ok (X : csc V) ri c1 len : c1 + len <= length (zip (rowids X) (c_values X)) ->
  forall fuel j k idx ids vals, StronglySorted le (drop k ri) -> StronglySorted lt (fst <$> seg (zip (rowids X) (c_values X)) (c1 + j) (c1 + len)) ->
  len - j + (length ri - k) < fuel -> length vals = length ids ->
  (rows_in (drop k ri) (seg (zip (rowids X) (c_values X)) (c1 + j) (c1 + len)) <> [] ->
   c1 + idx + length (rows_in (drop k ri) (seg (zip (rowids X) (c_values X)) (c1 + j) (c1 + len))) <= length ids) ->
  intersect fuel X ri c1 len j k idx (ids, vals) =
    Ok (idx + length (rows_in (drop k ri) (seg (zip (rowids X) (c_values X)) (c1 + j) (c1 + len))),
        (list_inserts (c1 + idx) (fst <$> rows_in (drop k ri) (seg (zip (rowids X) (c_values X)) (c1 + j) (c1 + len))) ids,
         list_inserts (c1 + idx) (snd <$> rows_in (drop k ri) (seg (zip (rowids X) (c_values X)) (c1 + j) (c1 + len))) vals)).
Proof.
  intros He. induction fuel as [|fuel IH]; intros j k idx ids vals Hr Hc Hf Hv Hn; [lia|]. cbn [intersect].
  destruct (Nat.ltb_spec j len) as [Hj|Hj]; [|cbn [andb]; rewrite seg_nil by lia; simpl; rewrite Nat.add_0_r; reflexivity].
  destruct (Nat.ltb_spec k (length ri)) as [Hk|Hk]; cbn [andb]; [|rewrite drop_ge by lia; rewrite rows_in_nil_l; simpl; rewrite Nat.add_0_r; reflexivity].
  destruct (lookup_lt_is_Some_2 ri k Hk) as [r Hr0]. destruct (lookup_lt_is_Some_2 (zip (rowids X) (c_values X)) (c1 + j) ltac:(lia)) as [x Hx].
  destruct (seg_lookup X (c1 + j) x Hx) as [Hx1 Hx2]. assert (Hj' : c1 + j < c1 + len) by lia.
  rewrite (get_Some _ _ _ Hr0), bind_Ok, (get_Some _ _ _ Hx1), bind_Ok.
  rewrite (seg_cons _ _ _ _ Hj' Hx) in Hc, Hn |- *. rewrite (drop_S _ _ _ Hr0) in Hr, Hn |- *.
  destruct (Nat.ltb_spec r (fst x)) as [H1|H1]; [|destruct (Nat.ltb_spec (fst x) r) as [H2|H2]].
  - rewrite rows_in_lt in Hn |- * by assumption. rewrite <- (seg_cons _ _ _ _ Hj' Hx) in Hc, Hn |- *. replace (k + 1) with (S k) by lia.
    apply IH; [apply (le_head r), Hr|exact Hc|lia|exact Hv|exact Hn].
  - rewrite rows_in_gt in Hn |- * by assumption. rewrite <- (drop_S _ _ _ Hr0) in Hr, Hn |- *. replace (c1 + j + 1) with (c1 + (j + 1)) in * by lia.
    apply IH; [exact Hr|apply (sorted_head x), Hc|lia|exact Hv|exact Hn].
  - assert (r = fst x) by lia. subst r. rewrite rows_in_eq in Hn |- * by assumption. specialize (Hn ltac:(discriminate)). simpl length in Hn.
    rewrite (get_Some _ _ _ Hx2), bind_Ok, set_Ok by lia. rewrite bind_Ok, set_Ok by lia. rewrite bind_Ok.
    replace (k + 1) with (S k) by lia. replace (c1 + j + 1) with (c1 + (j + 1)) in * by lia.
    rewrite IH; [|apply (le_head (fst x)), Hr|apply (sorted_head x), Hc|lia|rewrite !insert_length; exact Hv|rewrite insert_length; intros _; lia].
    rewrite !fmap_cons. cbn [list_inserts length]. replace (c1 + (idx + 1)) with (S (c1 + idx)) by lia.
    rewrite !list_insert_inserts_lt by lia. f_equal. f_equal. lia.
Qed.

Lemma inserts_lookup {A} (l : list A) o k i : o + length k <= length l -> list_inserts o k l !! i = if decide (o <= i < o + length k) then k !! (i - o) else l !! i.
Proof.
  intros H. destruct (decide (o <= i < o + length k)).
  - apply list_lookup_inserts; lia.
  - destruct (Nat.lt_ge_cases i o); [apply list_lookup_inserts_lt; lia|apply list_lookup_inserts_ge; lia].
Qed.

Definition widths (X : csc V) (ci : list nat) : nat := sum_list ((fun c => length (col_entries X c)) <$> ci).

Lemma rows_in_length ri (col : list ent) : length (rows_in ri col) <= length col.
Proof. apply filter_length. Qed.

Lemma copy_at {A} (src dst : list A) o p (k : list A) : (forall i, i < length k -> src !! (o + i) = k !! i) -> p + length k <= length dst ->
  for_ 0 (length k) (fun i d => x <- get src (o + i) ;; set_ d (p + i) x) dst = Ok (list_inserts p k dst).
Proof.
  unfold for_. rewrite Nat.sub_0_r. revert dst.
  assert (G : forall n i dst, i + n = length k -> (forall j, j < length k -> src !! (o + j) = k !! j) -> p + length k <= length dst ->
    for_n n i (fun i d => x <- get src (o + i) ;; set_ d (p + i) x) dst = Ok (list_inserts (p + i) (drop i k) dst)).
  { induction n as [|n IH]; intros i dst Hi Hs Hd.
    - rewrite drop_ge by lia. reflexivity.
    - cbn [for_n]. destruct (lookup_lt_is_Some_2 k i ltac:(lia)) as [x Hx]. rewrite (get_Some src _ x) by (rewrite Hs by lia; exact Hx).
      rewrite bind_Ok, set_Ok by lia. rewrite bind_Ok, IH; [|lia|exact Hs|rewrite insert_length; exact Hd].
      rewrite (drop_S k x i Hx). cbn [list_inserts]. replace (p + S i) with (S (p + i)) by lia. rewrite list_insert_inserts_lt by lia. reflexivity. }
  intros dst Hs Hd. rewrite (G (length k) 0 dst); [|lia|exact Hs|exact Hd]. rewrite Nat.add_0_r. reflexivity.
Qed.

Lemma intersect_oob (X : csc V) ri c1 len : c1 + len <= length (zip (rowids X) (c_values X)) ->
  forall fuel j k idx ids vals, StronglySorted le (drop k ri) -> StronglySorted lt (fst <$> seg (zip (rowids X) (c_values X)) (c1 + j) (c1 + len)) ->
  len - j + (length ri - k) < fuel -> length vals = length ids ->
  rows_in (drop k ri) (seg (zip (rowids X) (c_values X)) (c1 + j) (c1 + len)) <> [] ->
  length ids < c1 + idx + length (rows_in (drop k ri) (seg (zip (rowids X) (c_values X)) (c1 + j) (c1 + len))) ->
  intersect fuel X ri c1 len j k idx (ids, vals) = Err OutOfBounds.
Proof.
  intros He. induction fuel as [|fuel IH]; intros j k idx ids vals Hr Hc Hf Hv Hm Hn; [lia|]. cbn [intersect].
  destruct (Nat.ltb_spec j len) as [Hj|Hj]; [|rewrite seg_nil in Hm by lia; contradiction Hm; reflexivity].
  destruct (Nat.ltb_spec k (length ri)) as [Hk|Hk]; cbn [andb]; [|rewrite drop_ge, rows_in_nil_l in Hm by lia; congruence].
  destruct (lookup_lt_is_Some_2 ri k Hk) as [r Hr0]. destruct (lookup_lt_is_Some_2 (zip (rowids X) (c_values X)) (c1 + j) ltac:(lia)) as [x Hx].
  destruct (seg_lookup X (c1 + j) x Hx) as [Hx1 Hx2]. assert (Hj' : c1 + j < c1 + len) by lia.
  rewrite (get_Some _ _ _ Hr0), bind_Ok, (get_Some _ _ _ Hx1), bind_Ok.
  rewrite (seg_cons _ _ _ _ Hj' Hx) in Hc, Hm, Hn. rewrite (drop_S _ _ _ Hr0) in Hr, Hm, Hn.
  destruct (Nat.ltb_spec r (fst x)) as [H1|H1]; [|destruct (Nat.ltb_spec (fst x) r) as [H2|H2]].
  - rewrite rows_in_lt in Hm, Hn by assumption. rewrite <- (seg_cons _ _ _ _ Hj' Hx) in Hc, Hm, Hn. replace (k + 1) with (S k) by lia.
    apply IH; [apply (le_head r), Hr|exact Hc|lia|exact Hv|exact Hm|exact Hn].
  - rewrite rows_in_gt in Hm, Hn by assumption. rewrite <- (drop_S _ _ _ Hr0) in Hr, Hm, Hn. replace (c1 + j + 1) with (c1 + (j + 1)) in * by lia.
    apply IH; [exact Hr|apply (sorted_head x), Hc|lia|exact Hv|exact Hm|exact Hn].
  - assert (r = fst x) by lia. subst r. rewrite rows_in_eq in Hn by assumption. simpl length in Hn.
    rewrite (get_Some _ _ _ Hx2), bind_Ok. destruct (Nat.lt_ge_cases (c1 + idx) (length ids)) as [Hlt|Hge].
    + rewrite set_Ok by lia. rewrite bind_Ok, set_Ok by lia. rewrite bind_Ok.
      replace (k + 1) with (S k) by lia. replace (c1 + j + 1) with (c1 + (j + 1)) in * by lia.
      apply IH; [apply (le_head (fst x)), Hr|apply (sorted_head x), Hc|lia|rewrite !insert_length; exact Hv| |rewrite insert_length; lia].
      intros E. rewrite E in Hn. simpl in Hn. lia.
    + unfold set_. destruct (Nat.ltb_spec (c1 + idx) (length vals)); [lia|]. reflexivity.
Qed.

Lemma for_n_err {S} (I : nat -> S -> Prop) (body : nat -> S -> res S) n lo s0 i0 e : I lo s0 -> lo <= i0 < lo + n ->
  (forall i s, lo <= i < lo + n -> I i s -> body i s = Err e \/ (i <> i0 /\ exists s', body i s = Ok s' /\ I (i + 1) s')) ->
  for_n n lo body s0 = Err e.
Proof.
  revert lo s0. induction n as [|n IH]; intros lo s0 H0 Hi H; [lia|]. cbn [for_n].
  destruct (H lo s0 ltac:(lia) H0) as [->|(Hne & s' & -> & Hs')]; [reflexivity|]. rewrite bind_Ok.
  apply IH; [rewrite <- Nat.add_1_r; exact Hs'|lia|]. intros i s Hi' Hs. apply H; [lia|exact Hs].
Qed.

Section Ref2.
Context (X : csc V) (ri ci : list nat) (Hw : wf_csc X) (Hs : sorted_cols X) (Hr : StronglySorted le ri)
  (Hrb : Forall (fun r => r <= c_rows X) ri) (Hci : Forall (fun c => c < c_cols X) ci).
Let g := chosen X ci (rows_in ri).
Let fits (c : nat) : Prop := forall b, colptr X !! c = Some b -> rows_in ri (col_entries X c) <> [] -> b + length (rows_in ri (col_entries X c)) <= widths X ci.

Lemma widths_ok : for_ 0 (length ci) (fun i nnz_ci => c <- get ci i ;; e <- get (colptr X) (c + 1) ;; b <- get (colptr X) c ;; Ok (nnz_ci + e - b)) 0 = Ok (widths X ci).
Proof.
  pose (wd := fun i => sum_list ((fun c => length (col_entries X c)) <$> take i ci)).
  assert (W : widths X ci = wd (length ci)) by (unfold wd, widths; rewrite take_ge by lia; reflexivity). rewrite W.
  match goal with |- for_ 0 _ ?bd 0 = _ => destruct (for_inv (fun i n => n = wd i) bd 0 (length ci) 0) as (s & -> & ->) end; [lia|reflexivity| |reflexivity].
  intros i s Hi ->. destruct (col_bounds X ci (rows_in ri) Hw Hci i ltac:(lia)) as (c & b & e & Hc & Hlt & Hb & He & Hbe & Hz & Hseg & _).
  rewrite (get_Some _ _ _ Hc), bind_Ok, (get_Some _ _ _ He), bind_Ok, (get_Some _ _ _ Hb), bind_Ok. eexists. split; [reflexivity|].
  unfold wd. rewrite Nat.add_1_r, (take_S_r _ _ _ Hc), fmap_app, sum_list_app. simpl.
  assert (length (col_entries X c) = e - b) by (apply (row_entries_length (csc_tr X) c b e Hw Hlt Hb He)). lia.
Qed.

(** What the buffers hold after the columns below i. *)
Definition held (i : nat) (s : list nat * (list nat * list V)) : Prop :=
  fst s = ((fun i => length (g i)) <$> seq 0 i) ++ replicate (length ci - i) 0 /\
  length (fst (snd s)) = widths X ci /\ length (snd (snd s)) = widths X ci /\
  forall k c b p, k < i -> ci !! k = Some c -> colptr X !! c = Some b -> p < length (g k) ->
    fst (snd s) !! (b + p) = fst <$> g k !! p /\ snd (snd s) !! (b + p) = snd <$> g k !! p.

Let body i '(len_out, out) :=
  (c <- get ci i ;;
   cidx1 <- get (colptr X) c ;;
   cidx2 <- get (colptr X) (c + 1) ;;
   '(n, out) <- intersect (S (cidx2 - cidx1 + length ri)) X ri cidx1 (cidx2 - cidx1) 0 0 0 out ;;
   len_out <- set_ len_out i n ;;
   Ok (len_out, out)).

Lemma ref2_step i s : i < length ci -> held i s ->
  match ci !! i with
  | Some c => (fits c -> exists s', body i s = Ok s' /\ held (i + 1) s') /\ (~ fits c -> body i s = Err OutOfBounds)
  | None => True
  end.
Proof.
  intros Hi (H1 & H2 & H3 & H4). destruct s as [len [ids vals]]. cbn [fst snd] in *.
  destruct (col_bounds X ci (rows_in ri) Hw Hci i Hi) as (c & b & e & Hc & Hlt & Hb & He & Hbe & Hz & Hseg & E). rewrite Hc. fold g in E.
  unfold body. rewrite (get_Some _ _ _ Hc), bind_Ok, (get_Some _ _ _ Hb), bind_Ok, (get_Some _ _ _ He), bind_Ok.
  assert (Hbe' : b + (e - b) = e) by lia.
  pose proof (intersect_ok X ri b (e - b)) as F. pose proof (intersect_oob X ri b (e - b)) as G. rewrite Hbe' in F, G.
  specialize (F Hz (S (e - b + length ri)) 0 0 0 ids vals). specialize (G Hz (S (e - b + length ri)) 0 0 0 ids vals).
  rewrite !drop_0, Nat.add_0_r, <- Hseg in F, G. rewrite <- E in F, G. rewrite H2, H3 in F, G. split.
  - intros Hf. rewrite F; [|exact Hr|apply Hs, Hlt|lia|reflexivity|intros Hne; rewrite E in Hne |- *; apply (Hf b Hb Hne)]. rewrite bind_Ok. simpl plus.
    rewrite H1. rewrite set_Ok by (rewrite app_length, fmap_length, seq_length, replicate_length; lia). rewrite bind_Ok. eexists. split; [reflexivity|].
    assert (Hn : length (g i) = 0 \/ b + length (g i) <= widths X ci).
    { destruct (g i) eqn:Eg; [left; reflexivity|right]. rewrite E. apply (Hf b Hb). rewrite <- E. discriminate. }
    split_and!; cbn [fst snd].
    + rewrite insert_app_r_alt by (rewrite fmap_length, seq_length; lia). rewrite fmap_length, seq_length, Nat.sub_diag.
      replace (length ci - i) with (S (length ci - (i + 1))) by lia. simpl. rewrite Nat.add_1_r, seq_S, fmap_app, <- app_assoc. reflexivity.
    + rewrite inserts_length. exact H2.
    + rewrite inserts_length. exact H3.
    + intros k c' b' p Hk Hc' Hb' Hp.
      destruct Hn as [Hn|Hn].
      { assert (k <> i) by (intros ->; lia). apply nil_length_inv in Hn. rewrite Hn. simpl. apply (H4 k c' b' p); [lia|assumption..]. }
      rewrite !inserts_lookup by (rewrite fmap_length, ?H2, ?H3; lia). rewrite !fmap_length.
      destruct (decide (b <= b' + p < b + length (g i))) as [Hin|Hout].
      * assert (c' = c).
        { destruct (col_bounds X ci (rows_in ri) Hw Hci k ltac:(apply lookup_lt_Some in Hc'; exact Hc')) as (c2 & b2 & e2 & Hc2 & Hlt2 & Hb2 & He2 & Hbe2 & Hz2 & Hseg2 & E2).
          rewrite Hc' in Hc2. injection Hc2 as <-. rewrite Hb' in Hb2. injection Hb2 as <-. fold g in E2.
          pose proof (rows_in_length ri (col_entries X c')) as L1. pose proof (rows_in_length ri (col_entries X c)) as L2. rewrite <- E2 in L1. rewrite <- E in L2.
          assert (length (col_entries X c') = e2 - b') by (apply (row_entries_length (csc_tr X) c' b' e2 Hw Hlt2 Hb' He2)).
          assert (length (col_entries X c) = e - b) by (apply (row_entries_length (csc_tr X) c b e Hw Hlt Hb He)).
          destruct (Nat.lt_trichotomy c' c) as [Q|[Q|Q]]; [|exact Q|]; exfalso.
          - assert (e2 <= b) by (apply (wf_mono_le (csc_tr X) (c' + 1) c e2 b Hw); [exact He2|exact Hb|lia]). lia.
          - assert (e <= b') by (apply (wf_mono_le (csc_tr X) (c + 1) c' e b' Hw); [exact He|exact Hb'|lia]). lia. }
        subst c'. rewrite Hb in Hb'. injection Hb' as <-. assert (Eg : g k = g i) by (unfold g, chosen; rewrite Hc, Hc'; reflexivity).
        rewrite Eg, !list_lookup_fmap. replace (b + p - b) with p by lia. split; reflexivity.
      * destruct (decide (k = i)) as [->|Hne].
        { rewrite Hc in Hc'. injection Hc' as <-. rewrite Hb in Hb'. injection Hb' as <-. lia. }
        apply (H4 k c' b' p); [lia|assumption..].
  - intros Hf. assert (Hne : g i <> [] /\ widths X ci < b + length (g i)).
    { rewrite E. destruct (decide (rows_in ri (col_entries X c) = [])) as [Q|Q].
      - exfalso. apply Hf. intros b' _ Hne. contradiction.
      - split; [exact Q|]. apply Nat.nle_gt. intros Hle. apply Hf. intros b' Hb' _. rewrite Hb in Hb'. injection Hb' as <-. exact Hle. }
    rewrite G; [reflexivity|exact Hr|apply Hs, Hlt|lia|reflexivity|apply Hne|apply Hne].
Qed.

Lemma fits_dec c : c < c_cols X -> fits c \/ ~ fits c.
Proof.
  intros Hc. destruct (wf_lookup (csc_tr X) c Hw) as [b Hb]; [cbn [csc_tr rows]; lia|]. cbn [csc_tr rowptr] in Hb.
  destruct (decide (rows_in ri (col_entries X c) = [])) as [Q|Q]; [left; intros b' _ Hne; contradiction|].
  destruct (decide (b + length (rows_in ri (col_entries X c)) <= widths X ci)) as [W|W].
  - left. intros b' Hb' _. rewrite Hb in Hb'. injection Hb' as <-. exact W.
  - right. intros Hf. apply W, (Hf b Hb Q).
Qed.

Lemma held_0 : held 0 (replicate (length ci) 0, (replicate (widths X ci) 0, replicate (widths X ci) dflt)).
Proof. split_and!; cbn [fst snd]; rewrite ?replicate_length, ?Nat.sub_0_r; try reflexivity. intros; lia. Qed.

Lemma inserts_out {A B} (h : A -> B) d (L M : list A) nz : length L + length M <= nz ->
  list_inserts (length L) (h <$> M) ((h <$> L) ++ replicate (nz - length L) d) = (h <$> L ++ M) ++ replicate (nz - length (L ++ M)) d.
Proof.
  revert L. induction M as [|x M IH]; intros L H; [rewrite app_nil_r; reflexivity|]. simpl length in H. rewrite fmap_cons. cbn [list_inserts].
  rewrite list_insert_inserts_lt by lia. pose proof (put h d L nz x ltac:(lia)) as P. apply set_inv in P as [_ P]. rewrite <- P.
  replace (S (length L)) with (length (L ++ [x])) by (rewrite app_length; simpl; lia). rewrite IH by (rewrite app_length; simpl; lia). rewrite <- app_assoc. reflexivity.
Qed.

Lemma spRef2_bad i c : ci !! i = Some c -> ~ fits c -> spRef2 dflt X ri ci = Err OutOfBounds.
Proof.
  intros Hc Hf. unfold spRef2. rewrite (backCheck_forall ci (c_cols X)) by (apply lt_le, Hci). rewrite bind_Ok.
  rewrite (backCheck_forall ri (c_rows X) Hrb), bind_Ok. cbv zeta. rewrite widths_ok, bind_Ok.
  pose proof (lookup_lt_Some _ _ _ Hc) as Hi. unfold for_ at 1. rewrite Nat.sub_0_r.
  change (fun i '(len_out, out) => _) with body at 1.
  rewrite (for_n_err held body (length ci) 0 _ i OutOfBounds held_0); [reflexivity|lia|].
  intros k s Hk Hh. pose proof (ref2_step k s ltac:(lia) Hh) as St. destruct (ci !! k) as [c'|] eqn:Ec; [|apply lookup_ge_None in Ec; lia].
  destruct St as [S1 S2]. destruct (fits_dec c') as [Q|Q]; [apply (Forall_lookup_1 _ _ _ _ Hci Ec)| |left; apply S2, Q].
  right. split; [|apply S1, Q]. intros ->. rewrite Hc in Ec. injection Ec as <-. contradiction.
Qed.

Lemma spRef2_good : (forall c, c ∈ ci -> fits c) -> exists R, spRef2 dflt X ri ci = Ok R /\ sub_of (rows_in ri) X ri ci R.
Proof.
  intros Hf. unfold spRef2. rewrite (backCheck_forall ci (c_cols X)) by (apply lt_le, Hci). rewrite bind_Ok.
  rewrite (backCheck_forall ri (c_rows X) Hrb), bind_Ok. cbv zeta. rewrite widths_ok, bind_Ok.
  change (fun i '(len_out, out) => _) with body at 1.
  destruct (for_inv held body 0 (length ci) _ (Nat.le_0_l _) held_0) as ([len [ids vals]] & -> & H1 & H2 & H3 & H4).
  { intros k s Hk Hh. pose proof (ref2_step k s ltac:(lia) Hh) as St. destruct (ci !! k) as [c'|] eqn:Ec; [|apply lookup_ge_None in Ec; lia].
    apply St, Hf. eapply elem_of_list_lookup_2, Ec. }
  cbn [fst snd] in *. rewrite Nat.sub_diag, app_nil_r in H1. rewrite bind_Ok, set_zero, bind_Ok.
  set (n := length ci) in *.
  assert (Hlen : forall i, i < n -> get len i = Ok (length (g i))).
  { intros i Hi. apply get_Some. rewrite H1, list_lookup_fmap, lookup_seq_lt by exact Hi. reflexivity. }
  match goal with |- context [for_ 0 n ?bd (replicate (n + 1) 0)] =>
    destruct (for_inv (fun i cp => cp = cps X ci (rows_in ri) n i) bd 0 n (replicate (n + 1) 0)) as (cp & -> & ->) end; [lia| | |].
  { unfold cps. rewrite Nat.sub_0_r, Nat.add_1_r. reflexivity. }
  { intros i cp Hi ->. rewrite (get_Some _ _ (pre g i)).
    2:{ unfold cps. rewrite lookup_app_l by (rewrite fmap_length, seq_length; lia). rewrite list_lookup_fmap, lookup_seq_lt by lia. reflexivity. }
    rewrite bind_Ok, Hlen by lia. rewrite bind_Ok. fold g. rewrite <- pre_S. unfold g at 1. rewrite cps_set by lia. eexists. split; [reflexivity|]. rewrite Nat.add_1_r. reflexivity. }
  rewrite bind_Ok, cps_all. fold g.
  assert (Hcp : forall i, i <= n -> get (pre g <$> seq 0 (n + 1)) i = Ok (pre g i)) by (intros i Hi; apply get_Some; rewrite list_lookup_fmap, lookup_seq_lt by lia; reflexivity).
  rewrite Hcp by lia. rewrite bind_Ok.
  match goal with |- context [for_ 0 n ?bd ?s0] =>
    destruct (for_inv (fun i s => s = ((fst <$> rowsOf g 0 i) ++ replicate (pre g n - length (rowsOf g 0 i)) 0,
       (snd <$> rowsOf g 0 i) ++ replicate (pre g n - length (rowsOf g 0 i)) dflt)) bd 0 n s0) as (s & -> & ->) end; [lia| | |].
  { simpl. rewrite Nat.sub_0_r. reflexivity. }
  { intros i s Hi ->. destruct (col_bounds X ci (rows_in ri) Hw Hci i ltac:(lia)) as (c & b & e & Hc & Hlt & Hb & He & _).
    rewrite (get_Some _ _ _ Hc), bind_Ok, (get_Some _ _ _ Hb), bind_Ok, Hlen by lia. rewrite bind_Ok, Hcp by lia. rewrite bind_Ok.
    assert (Hl : length (rowsOf g 0 i) = pre g i) by (rewrite rowsOf_length, pre_0 by lia; lia).
    assert (Hle : length (rowsOf g 0 i) + length (g i) <= pre g n) by (rewrite Hl, <- pre_S; apply pre_le; lia).
    assert (L1 : forall {A} (k : list A) d, length k = length (rowsOf g 0 i) -> length (k ++ replicate (pre g n - length (rowsOf g 0 i)) d) = pre g n).
    { intros A k d Hk. rewrite app_length, replicate_length, Hk. lia. }
    pose proof (copy_at ids ((fst <$> rowsOf g 0 i) ++ replicate (pre g n - length (rowsOf g 0 i)) 0) b (pre g i) (fst <$> g i)) as C1.
    pose proof (copy_at vals ((snd <$> rowsOf g 0 i) ++ replicate (pre g n - length (rowsOf g 0 i)) dflt) b (pre g i) (snd <$> g i)) as C2.
    rewrite fmap_length in C1. rewrite fmap_length in C2. cbn [fst snd].
    rewrite C1; [|intros p Hp; rewrite list_lookup_fmap; apply (H4 i c b p); [lia|assumption..]|rewrite L1 by (rewrite fmap_length; reflexivity); lia].
    rewrite bind_Ok. rewrite C2; [|intros p Hp; rewrite list_lookup_fmap; apply (H4 i c b p); [lia|assumption..]|rewrite L1 by (rewrite fmap_length; reflexivity); lia].
    rewrite bind_Ok. eexists. split; [reflexivity|]. rewrite <- Hl, !inserts_out by exact Hle. rewrite Nat.add_1_r, rowsOf_S by lia. reflexivity. }
  rewrite bind_Ok. assert (Hl : length (rowsOf g 0 n) = pre g n) by (rewrite rowsOf_length, pre_0 by lia; lia). rewrite Hl, Nat.sub_diag, !app_nil_r.
  eexists. split; [reflexivity|]. apply sub_result; [exact Hw|]. apply rows_in_sub.
Qed.
End Ref2.

(** SpRef2 takes, for every chosen column, the entries in the chosen rows (each once), provided the chosen entries of each
    chosen column, counted from the start of that column in the arrays of the matrix, end within the number of entries of
    all chosen columns. *)
Theorem C64_spref2_partial (X : csc V) (ri ci : list nat) : wf_csc X -> sorted_cols X -> StronglySorted le ri -> Forall (fun r => r <= c_rows X) ri ->
  Forall (fun c => c < c_cols X) ci ->
  (forall c b, c ∈ ci -> colptr X !! c = Some b -> rows_in ri (col_entries X c) <> [] ->
     b + length (rows_in ri (col_entries X c)) <= sum_list ((fun c => length (col_entries X c)) <$> ci)) ->
  exists R, spRef2 dflt X ri ci = Ok R /\ sub_of (rows_in ri) X ri ci R.
Proof. intros Hw Hs Hr Hrb Hci Hf. apply spRef2_good; try assumption. intros c Hc b Hb Hne. apply Hf; assumption. Qed.

(** That is so for the first [n] columns. *)
Theorem C64_spref2_first (X : csc V) (ri : list nat) (n : nat) : wf_csc X -> sorted_cols X -> StronglySorted le ri -> Forall (fun r => r <= c_rows X) ri ->
  n <= c_cols X -> exists R, spRef2 dflt X ri (seq 0 n) = Ok R /\ sub_of (rows_in ri) X ri (seq 0 n) R.
Proof.
  intros Hw Hs Hr Hrb Hn. apply C64_spref2_partial; try assumption.
  - apply Forall_forall. intros x Hx. apply elem_of_seq in Hx. lia.
  - intros c b Hc Hb _. apply elem_of_seq in Hc.
    assert (P : b = pre (row_entries (csc_tr X)) c). { pose proof (wf_pre (csc_tr X) c Hw ltac:(cbn [csc_tr rows]; lia)) as P. cbn [csc_tr rowptr] in P. rewrite Hb in P. injection P as P. exact P. }
    pose proof (pre_le (row_entries (csc_tr X)) (S c) n ltac:(lia)) as Q. rewrite pre_S in Q. pose proof (rows_in_length ri (col_entries X c)) as L.
    change (sum_list _) with (pre (row_entries (csc_tr X)) n). unfold col_entries in *. lia.
Qed.

(** FINDING.  In every other case the buffers overflow: they have room for the chosen columns only, but each column is
    written at its position in the whole matrix. *)
Theorem C64_spref2_refuted (X : csc V) (ri ci : list nat) c b : wf_csc X -> sorted_cols X -> StronglySorted le ri -> Forall (fun r => r <= c_rows X) ri ->
  Forall (fun c => c < c_cols X) ci -> c ∈ ci -> colptr X !! c = Some b -> rows_in ri (col_entries X c) <> [] ->
  sum_list ((fun c => length (col_entries X c)) <$> ci) < b + length (rows_in ri (col_entries X c)) -> spRef2 dflt X ri ci = Err OutOfBounds.
Proof.
  intros Hw Hs Hr Hrb Hci Hc Hb Hne Hlt. apply elem_of_list_lookup in Hc as [i Hi]. apply (spRef2_bad X ri ci Hw Hs Hr Hrb Hci i c Hi).
  intros Hf. specialize (Hf b Hb Hne). unfold widths in Hf. lia.
Qed.
End C64.

(** A matrix of 3 rows and 3 columns: rows 0 and 2 in column 0, none in column 1, rows 1 and 2 in column 2. *)
Definition refX : csc nat := mkCsc 3 3 4 [0; 2; 2; 4] [0; 2; 1; 2] [10; 12; 21; 22].
Example C64_inputs : wf_csc refX /\ sorted_cols refX /\ StronglySorted le [0; 2; 2] /\ Forall (fun r => r <= c_rows refX) [0; 2; 2] /\
  Forall (fun c => c < c_cols refX) [0; 2] /\ picked [0; 2; 2] (col_entries refX 2) = [(2, 22); (2, 22)] /\ rows_in [0; 2; 2] (col_entries refX 2) = [(2, 22)].
Proof.
  split_and!.
  - unfold wf_csc, csc_tr, refX. cbn. prove_wf.
  - intros [|[|[|j]]] Hj; simpl in Hj; [cbn; repeat constructor..|lia].
  - repeat constructor.
  - repeat constructor.
  - repeat constructor.
  - reflexivity.
  - reflexivity.
Qed.
Example C64_run : spRef 0 refX [0; 2; 2] [0; 2] = Ok (mkCsc 3 2 5 [0; 3; 5] [0; 2; 2; 2; 2] [10; 12; 12; 22; 22]) /\
  spRef1 0 refX [0; 2; 2] [0; 2] = Ok (mkCsc 3 2 3 [0; 2; 3] [0; 2; 2] [10; 12; 22]) /\
  spRef2 0 refX [0; 2] [0; 1; 2] = Ok (mkCsc 2 3 3 [0; 2; 2; 3] [0; 2; 2] [10; 12; 22]) /\ spRef2 0 refX [0; 2] [0; 2] = Ok (mkCsc 2 2 3 [0; 2; 3] [0; 2; 2] [10; 12; 22]).
Proof. split_and!; vm_compute; reflexivity. Qed.
(** The cases of the findings: no entry chosen; a row id past the new size; the column id 3; a row past the bit map; a
    column by itself. *)
Example C64_findings : spRef 0 refX [0; 2] [1] = Err AssertFail /\ spRef 0 refX [2] [0] = Ok (mkCsc 1 1 1 [0; 1] [2] [12]) /\
  spRef 0 refX [0; 2] [0; 3] = Err OutOfBounds /\ spRef1 0 (mkCsc 65 1 1 [0; 1] [64] [7]) [64] [0] = Err OutOfBounds /\
  spRef2 0 refX [1] [2] = Err OutOfBounds.
Proof. split_and!; vm_compute; reflexivity. Qed.

Print Assumptions C64_spref.
Print Assumptions C64_empty_refuted.
Print Assumptions C64_prefix.
Print Assumptions C64_renumber_refuted.
Print Assumptions C64_bounds_refuted.
Print Assumptions C64_spref1_partial.
Print Assumptions C64_bitmap_refuted.
Print Assumptions C64_spref2_partial.
Print Assumptions C64_spref2_first.
Print Assumptions C64_spref2_refuted.
