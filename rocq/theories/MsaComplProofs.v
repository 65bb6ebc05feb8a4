(** Correctness of the complemented-mask MSA row kernels. *)
From stdpp Require Import sorting.
From Verif Require Import Base Spec KernelBase BaseProofs ComplProofs MsaModel MsaProofs.

Section MsaCompl.
Context {V : Type} (mul add : V -> V -> V).
Notation colval := (colval mul add).
Notation pcols := (fmap (fun p : nat * V * V => fst (fst p))).
Notation mrow := (mrow mul add).

(** State of the accumulator: masked columns are blocked, columns listed in [live] hold
    their running sum, the rest is untouched. *)
Definition cstate (mask live : list nat) (i : nat) : sbyte :=
  if decide (i ∈ mask) then B0 else if decide (i ∈ live) then B1 else FF.
Definition cvalue (mask live : list nat) ps (i : nat) : option V :=
  if decide (i ∈ mask) then None else if decide (i ∈ live) then colval ps i else None.

Record crep (n : nat) (mask live : list nat) ps (acc : msa V) : Prop := mkCrep {
  cr_st : length (st acc) = n;
  cr_vl : length (vl acc) = n;
  cr_state : forall i, i < n -> st acc !! i = Some (cstate mask live i);
  cr_value : forall i, i < n -> vl acc !! i = Some (cvalue mask live ps i) }.

Lemma crep_clean n ps : crep n [] [] ps (msa_clean n).
Proof.
  split; simpl.
  - apply repeat_length.
  - apply repeat_length.
  - intros i Hi. rewrite repeat_lookup by exact Hi. reflexivity.
  - intros i Hi. rewrite repeat_lookup by exact Hi. reflexivity.
Qed.

Lemma crep_nil_eq n ps acc : crep n [] [] ps acc -> dirtyIdx acc = [] -> acc = msa_clean n.
Proof.
  intros [H1 H2 H4 H5] H3. destruct acc as [s v d]; simpl in *. unfold msa_clean. subst d.
  f_equal; apply list_eq_repeat; auto.
Qed.

(** Changing one cell of the accumulator. *)
Lemma crep_upd n mask live ps mask' live' ps' acc c s v d :
  crep n mask live ps acc -> c < n ->
  s = cstate mask' live' c -> v = cvalue mask' live' ps' c ->
  (forall i, i <> c -> cstate mask' live' i = cstate mask live i) ->
  (forall i, i <> c -> cvalue mask' live' ps' i = cvalue mask live ps i) ->
  crep n mask' live' ps' (mkMsa (<[c:=s]> (st acc)) (<[c:=v]> (vl acc)) d).
Proof.
  intros [H1 H2 H4 H5] Hc Hs Hv Hs' Hv'. split; simpl.
  - rewrite insert_length. exact H1.
  - rewrite insert_length. exact H2.
  - intros i Hi. destruct (decide (c = i)) as [<-|Hne].
    + rewrite list_lookup_insert by lia. congruence.
    + rewrite list_lookup_insert_ne by exact Hne. rewrite Hs' by congruence. apply H4, Hi.
  - intros i Hi. destruct (decide (c = i)) as [<-|Hne].
    + rewrite list_lookup_insert by lia. congruence.
    + rewrite list_lookup_insert_ne by exact Hne. rewrite Hv' by congruence. apply H5, Hi.
Qed.

Lemma crep_id n mask live ps mask' live' ps' acc acc' :
  crep n mask live ps acc ->
  st acc' = st acc -> vl acc' = vl acc ->
  (forall i, i < n -> cstate mask' live' i = cstate mask live i) ->
  (forall i, i < n -> cvalue mask' live' ps' i = cvalue mask live ps i) ->
  crep n mask' live' ps' acc'.
Proof.
  intros [H1 H2 H4 H5] Hst Hvl Hs' Hv'. split; rewrite ?Hst, ?Hvl; auto.
  - intros i Hi. rewrite Hs' by exact Hi. auto.
  - intros i Hi. rewrite Hv' by exact Hi. auto.
Qed.

Lemma setNotAllowed_crep n mask c acc : crep n mask [] [] acc -> c < n -> c ∉ mask ->
  exists acc', setNotAllowed true acc c = Ok acc' /\ crep n (mask ++ [c]) [] [] acc' /\
    dirtyIdx acc' = dirtyIdx acc.
Proof.
  intros Hp Hc Hnin. pose proof Hp as [H1 H2 H4 H5]. unfold setNotAllowed.
  rewrite (get_state_Ok acc c FF).
  2:{ rewrite H4 by exact Hc. unfold cstate. rewrite decide_False by exact Hnin. reflexivity. }
  simpl. rewrite set_state_Ok by lia. eexists. split; [reflexivity|]. split; [|reflexivity].
  assert (vl acc = <[c:=None]> (vl acc)) as ->.
  { symmetry. apply list_insert_id. rewrite H5 by exact Hc. unfold cvalue.
    rewrite decide_False by exact Hnin. reflexivity. }
  assert (forall i, i <> c -> (i ∈ mask ++ [c] <-> i ∈ mask)) as Hext.
  { intros i Hi. rewrite elem_of_app, elem_of_list_singleton. tauto. }
  assert (c ∈ mask ++ [c]) as Hcin by (apply elem_of_app; right; left).
  eapply crep_upd; eauto.
  - unfold cstate. rewrite decide_True by exact Hcin. reflexivity.
  - unfold cvalue. rewrite decide_True by exact Hcin. reflexivity.
  - intros i Hi. unfold cstate. rewrite (decide_ext (i ∈ mask ++ [c]) (i ∈ mask)) by auto. reflexivity.
  - intros i Hi. unfold cvalue. rewrite (decide_ext (i ∈ mask ++ [c]) (i ∈ mask)) by auto. reflexivity.
Qed.

Definition step1AC (acc : msa V) (p : nat * V * V) : res (msa V) :=
  let '(c, a, b) := p in
  s <- get_state acc c ;;
  if bool_decide (s = ALLOWED true) then
    acc <- set_value acc c (Some (mul a b)) ;; setInitialized true acc c
  else if bool_decide (s = INITIALIZED) then
    v <- get_value acc c ;; set_value acc c (Some (add v (mul a b)))
  else Ok acc.

Lemma bodyC_step (two : bool) (A B : csr V) j k acc c a b :
  values A !! j = Some a -> colids B !! k = Some c -> values B !! k = Some b ->
  (if two then body2AC mul add A B j k acc else body1AC mul add A B j k acc) = step1AC acc (c, a, b).
Proof.
  intros Ha Hc Hb. unfold body1AC, body2AC, step1AC. rewrite (get_Some _ _ _ Hc). simpl.
  destruct two; (destruct (get_state acc c) as [s|f]; [|reflexivity]); simpl;
    rewrite (get_Some _ _ _ Ha), (get_Some _ _ _ Hb); [destruct s|]; reflexivity.
Qed.

(** Live columns after the products [ps]. *)
Definition live (mask : list nat) (ps : list (nat * V * V)) : list nat :=
  filter (fun j => j ∉ mask) (first_touch (pcols ps)).

Lemma live_elem mask ps j : j ∈ live mask ps <-> j ∉ mask /\ j ∈ pcols ps.
Proof. unfold live. rewrite elem_of_list_filter, elem_of_first_touch. reflexivity. Qed.

Lemma live_snoc mask ps c a b : live mask (ps ++ [(c, a, b)]) =
  if decide (c ∉ mask /\ c ∉ pcols ps) then live mask ps ++ [c] else live mask ps.
Proof.
  unfold live. rewrite fmap_app. simpl. rewrite first_touch_snoc.
  destruct (decide (c ∈ pcols ps)) as [Hin|Hin].
  - rewrite decide_False by tauto. reflexivity.
  - rewrite filter_app, filter_cons, filter_nil. destruct (decide (c ∉ mask)) as [Hm|Hm].
    + rewrite decide_True by tauto. reflexivity.
    + rewrite decide_False by tauto. apply app_nil_r.
Qed.

Lemma step1AC_crep n mask ps acc c a b :
  crep n mask (live mask ps) ps acc -> dirtyIdx acc = live mask ps -> c < n ->
  exists acc', step1AC acc (c, a, b) = Ok acc' /\
    crep n mask (live mask (ps ++ [(c, a, b)])) (ps ++ [(c, a, b)]) acc' /\
    dirtyIdx acc' = live mask (ps ++ [(c, a, b)]).
Proof.
  intros Hp Hd Hc. pose proof Hp as [H1 H2 H4 H5]. unfold step1AC.
  pose proof (H4 c Hc) as Hs. pose proof (H5 c Hc) as Hv.
  rewrite (get_state_Ok _ _ _ Hs). rewrite bind_Ok. rewrite live_snoc.
  assert (forall i, i <> c -> (i ∈ live mask ps ++ [c] <-> i ∈ live mask ps)) as Hext.
  { intros i Hi. rewrite elem_of_app, elem_of_list_singleton. tauto. }
  assert (forall i, i <> c -> colval (ps ++ [(c, a, b)]) i = colval ps i) as Hcv.
  { intros i Hi. rewrite colval_snoc, decide_False by congruence. reflexivity. }
  destruct (decide (c ∈ mask)) as [Hm|Hm].
  - (* blocked *)
    assert (cstate mask (live mask ps) c = B0) as -> by (unfold cstate; rewrite decide_True by exact Hm; reflexivity).
    rewrite 2!bool_decide_eq_false_2 by discriminate. rewrite decide_False by tauto.
    exists acc. split; [reflexivity|]. split; [|exact Hd].
    eapply crep_id; eauto. intros i Hi. unfold cvalue.
    destruct (decide (i = c)) as [->|Hne].
    + rewrite 2!(decide_True (P := c ∈ mask)) by exact Hm. reflexivity.
    + rewrite Hcv by exact Hne. reflexivity.
  - assert (c ∈ live mask ps <-> c ∈ pcols ps) as Hl by (rewrite live_elem; tauto).
    destruct (decide (c ∈ pcols ps)) as [Ht|Ht].
    + (* accumulate *)
      assert (cstate mask (live mask ps) c = B1) as Hst.
      { unfold cstate; rewrite decide_False by exact Hm. rewrite decide_True by tauto. reflexivity. }
      rewrite Hst. rewrite bool_decide_eq_false_2 by discriminate. rewrite bool_decide_eq_true_2 by reflexivity.
      unfold cvalue in Hv. rewrite decide_False in Hv by exact Hm. rewrite decide_True in Hv by tauto.
      destruct (colval ps c) as [v|] eqn:Hcvc.
      2:{ apply colval_None in Hcvc. contradiction. }
      rewrite (get_value_Ok acc c v) by (auto; lia). rewrite bind_Ok. rewrite set_value_Ok by lia.
      rewrite decide_False by tauto.
      eexists. split; [reflexivity|]. split; [|exact Hd].
      assert (st acc = <[c:=B1]> (st acc)) as ->.
      { symmetry. apply list_insert_id. rewrite Hs, Hst. reflexivity. }
      eapply crep_upd; eauto.
      * unfold cvalue. rewrite decide_False by exact Hm. rewrite decide_True by tauto.
        rewrite colval_snoc, decide_True by reflexivity. rewrite Hcvc. reflexivity.
      * intros i Hi. unfold cvalue. rewrite Hcv by exact Hi. reflexivity.
    + (* first product *)
      assert (cstate mask (live mask ps) c = FF) as Hst.
      { unfold cstate; rewrite decide_False by exact Hm. rewrite decide_False by tauto. reflexivity. }
      rewrite Hst. rewrite bool_decide_eq_true_2 by reflexivity.
      rewrite set_value_Ok by lia. rewrite bind_Ok. unfold setInitialized.
      rewrite (get_state_Ok _ c FF) by (simpl; congruence). simpl.
      rewrite set_state_Ok by (simpl; lia). simpl.
      rewrite decide_True by tauto.
      eexists. split; [reflexivity|]. simpl. split; [|rewrite Hd; reflexivity].
      apply colval_None with (mul := mul) (add := add) in Ht.
      assert (c ∈ live mask ps ++ [c]) as Hcin by (apply elem_of_app; right; left).
      eapply crep_upd; eauto.
      * unfold cstate. rewrite decide_False by exact Hm. rewrite decide_True by exact Hcin. reflexivity.
      * unfold cvalue. rewrite decide_False by exact Hm. rewrite decide_True by exact Hcin.
        rewrite colval_snoc, decide_True by reflexivity. rewrite Ht. reflexivity.
      * intros i Hi. unfold cstate. rewrite (decide_ext (i ∈ live mask ps ++ [c]) (i ∈ live mask ps)) by auto. reflexivity.
      * intros i Hi. unfold cvalue. rewrite (decide_ext (i ∈ live mask ps ++ [c]) (i ∈ live mask ps)) by auto.
        rewrite Hcv by exact Hi. reflexivity.
Qed.

Lemma clear_crep n mask lv ps mask' lv' acc c :
  crep n mask lv ps acc -> c < n -> c ∉ mask' -> c ∉ lv' ->
  (c ∈ mask \/ c ∈ lv) ->
  (forall i, i <> c -> (i ∈ mask' <-> i ∈ mask)) ->
  (forall i, i <> c -> (i ∈ lv' <-> i ∈ lv)) ->
  exists acc', clear true true acc c = Ok acc' /\ crep n mask' lv' ps acc' /\
    dirtyIdx acc' = dirtyIdx acc.
Proof.
  intros Hp Hc Hm' Hl' Hor Hme Hle. pose proof Hp as [H1 H2 H4 H5]. unfold clear.
  rewrite (get_state_Ok _ _ _ (H4 c Hc)). rewrite bind_Ok.
  rewrite bool_decide_eq_false_2.
  2:{ unfold cstate. destruct (decide (c ∈ mask)); [discriminate|]. rewrite decide_True by tauto. discriminate. }
  rewrite set_state_Ok by lia. simpl. rewrite set_value_Ok by (simpl; lia). simpl.
  eexists. split; [reflexivity|]. split; [|reflexivity].
  eapply crep_upd; eauto.
  - unfold cstate. rewrite decide_False by exact Hm'. rewrite decide_False by exact Hl'. reflexivity.
  - unfold cvalue. rewrite decide_False by exact Hm'. rewrite decide_False by exact Hl'. reflexivity.
  - intros i Hi. unfold cstate. rewrite (decide_ext (i ∈ mask') (i ∈ mask)) by auto.
    rewrite (decide_ext (i ∈ lv') (i ∈ lv)) by auto. reflexivity.
  - intros i Hi. unfold cvalue. rewrite (decide_ext (i ∈ mask') (i ∈ mask)) by auto.
    rewrite (decide_ext (i ∈ lv') (i ∈ lv)) by auto. reflexivity.
Qed.

Definition gstepC : msa V * out V -> nat -> res (msa V * out V) := fun '(acc, o) idx =>
  v <- get_value acc idx ;;
  o' <- emit o idx v ;;
  acc' <- clear true true acc idx ;;
  Ok (acc', o').

Lemma gatherC_loop n mask keys ps acc dn cap :
  crep n mask keys ps acc -> NoDup keys ->
  (forall c, c ∈ keys -> c < n /\ c ∉ mask /\ c ∈ pcols ps) ->
  length dn + length keys <= cap ->
  exists acc', foldM gstepC keys (acc, mkOut dn cap) = Ok (acc', mkOut (dn ++ mrow ps keys) cap) /\
    crep n mask [] ps acc'.
Proof.
  revert acc dn. induction keys as [|c keys IH]; intros acc dn Hp Hnd Hr Hcap.
  - exists acc. simpl. rewrite app_nil_r. auto.
  - apply NoDup_cons in Hnd as [Hnin Hnd].
    destruct (Hr c) as (Hc & Hm & Ht); [left|].
    destruct (clear_crep n mask (c :: keys) ps mask keys acc c Hp Hc) as (acc1 & Hcl & Hp1 & _);
      auto.
    { right. left. } { intros i Hi. rewrite elem_of_cons. tauto. }
    destruct (colval ps c) as [v|] eqn:Hcv.
    2:{ apply colval_None in Hcv. contradiction. }
    pose proof (cr_value _ _ _ _ _ Hp c Hc) as Hv. unfold cvalue in Hv.
    rewrite decide_False in Hv by exact Hm. rewrite decide_True in Hv by left. rewrite Hcv in Hv.
    destruct (IH acc1 (dn ++ [(c, v)]) Hp1 Hnd) as (acc' & Hf & Hp').
    { intros c' Hc'. apply Hr. right. exact Hc'. }
    { rewrite app_length. simpl in *. lia. }
    exists acc'. split; [|exact Hp'].
    rewrite foldM_cons. unfold gstepC at 1. rewrite (get_value_Ok acc c v); [|rewrite (cr_st _ _ _ _ _ Hp); exact Hc|exact Hv].
    rewrite bind_Ok. rewrite emit_Ok by (simpl in *; lia). rewrite bind_Ok. rewrite Hcl. rewrite bind_Ok.
    cbn [o_done o_cap bind]. rewrite Hf. rewrite mrow_cons, Hcv, <- app_assoc. reflexivity.
Qed.

Lemma clearMask_loop n mask ps acc :
  crep n mask [] ps acc -> NoDup mask -> (forall c, c ∈ mask -> c < n) ->
  exists acc', foldM (fun acc c => clear true true acc c) mask acc = Ok acc' /\ crep n [] [] ps acc' /\
    dirtyIdx acc' = dirtyIdx acc.
Proof.
  revert acc. induction mask as [|c mask IH]; intros acc Hp Hnd Hr.
  - exists acc. auto.
  - apply NoDup_cons in Hnd as [Hnin Hnd].
    destruct (clear_crep n (c :: mask) [] ps mask [] acc c Hp) as (acc1 & Hcl & Hp1 & Hd1); auto.
    { apply Hr. left. } { intros H; inversion H. } { left. left. }
    { intros i Hi. rewrite elem_of_cons. tauto. }
    destruct (IH acc1 Hp1 Hnd) as (acc' & Hf & Hp' & Hd'). { intros c' Hc'. apply Hr. right. exact Hc'. }
    exists acc'. simpl. rewrite Hcl. simpl. split; [exact Hf|]. split; [exact Hp'|]. congruence.
Qed.

Theorem msaNumericRowC_correct (two sorted : bool) (A B M : csr V) row dn cap :
  wf A -> wf B -> wf M -> cols A = rows B -> rows M = rows A -> cols M = cols B ->
  row < rows A -> NoDup (row_cols M row) ->
  length dn + length (compl_cols A B M row) <= cap ->
  msaNumericRowC mul add two sorted A B M row (msa_clean (cols B)) (mkOut dn cap) =
    Ok (msa_clean (cols B), mkOut (dn ++ crow mul add sorted A B M row) cap).
Proof.
  intros HA HB HM HAB HMA HMB Hrow Hnd Hcap. unfold msaNumericRowC.
  assert (forall c, c ∈ row_cols M row -> c < cols B) as Hr.
  { intros c Hc. rewrite <- HMB. eapply row_cols_range; eauto. }
  rewrite mask_loop_foldM by (auto; lia).
  destruct (foldM_inv (fun done acc => crep (cols B) done [] [] acc /\ dirtyIdx acc = [])
              (fun acc c => setNotAllowed true acc c) (row_cols M row) (msa_clean (cols B)))
    as (acc1 & Hf & Hp1 & Hd1).
  { split; [apply crep_clean|reflexivity]. }
  { intros done a rest s Hl [HI Hd].
    destruct (setNotAllowed_crep (cols B) done a s HI) as (s' & Hs & HI' & Hd').
    - apply Hr. rewrite Hl. apply elem_of_app. right. left.
    - rewrite Hl in Hnd. apply NoDup_app in Hnd as (_ & Hdj & _). intros Hin. apply (Hdj a Hin). left.
    - exists s'. split; [exact Hs|]. split; [exact HI'|congruence]. }
  rewrite Hf. simpl.
  rewrite (prod_loop_foldM A B row _ step1AC); [|exact HA|exact HB|exact HAB|exact Hrow|].
  2:{ intros j k s c a b Ha Hc Hb _. apply (bodyC_step two A B j k s c a b Ha Hc Hb). }
  destruct (foldM_inv (fun done acc => crep (cols B) (row_cols M row) (live (row_cols M row) done) done acc
                                       /\ dirtyIdx acc = live (row_cols M row) done)
              step1AC (row_prods A B row) acc1) as (acc2 & Hf2 & Hp2 & Hd2).
  { split; [exact Hp1|exact Hd1]. }
  { intros done [[c a] b] rest s Hl [HI Hd]. apply step1AC_crep; auto.
    apply (row_prods_range A B row c a b HB). rewrite Hl. apply elem_of_app. right. left. }
  rewrite Hf2. simpl. unfold gather. cbv zeta.
  assert (live (row_cols M row) (row_prods A B row) = compl_cols A B M row) as Hlv.
  { unfold live, compl_cols. rewrite row_prods_cols. reflexivity. }
  rewrite Hlv in Hp2, Hd2.
  set (keys := if sorted then merge_sort le (dirtyIdx acc2) else dirtyIdx acc2).
  assert (keys ≡ₚ compl_cols A B M row) as Hperm.
  { unfold keys. rewrite Hd2. destruct sorted; [apply merge_sort_Permutation|reflexivity]. }
  destruct (gatherC_loop (cols B) (row_cols M row) keys (row_prods A B row) acc2 dn cap)
    as (acc3 & Hg & Hp3).
  { eapply crep_id; [exact Hp2|reflexivity|reflexivity| |].
    - intros i Hi. unfold cstate. rewrite (decide_ext (i ∈ keys) (i ∈ compl_cols A B M row)); [reflexivity|].
      rewrite Hperm. reflexivity.
    - intros i Hi. unfold cvalue. rewrite (decide_ext (i ∈ keys) (i ∈ compl_cols A B M row)); [reflexivity|].
      rewrite Hperm. reflexivity. }
  { rewrite Hperm. apply compl_cols_NoDup. }
  { intros c Hc. rewrite Hperm in Hc. apply compl_cols_elem in Hc as [Hc1 Hc2].
    split; [|auto]. apply elem_of_list_fmap in Hc2 as ([[c' a] b] & -> & Hin).
    eapply row_prods_range; eauto. }
  { rewrite Hperm. exact Hcap. }
  unfold gstepC in Hg. rewrite Hg. simpl.
  unfold resetStatesMask. rewrite mask_loop_foldM by (auto; lia).
  destruct (clearMask_loop (cols B) (row_cols M row) (row_prods A B row)
              (mkMsa (st acc3) (vl acc3) [])) as (acc4 & Hf4 & Hp4 & Hd4); auto.
  { eapply crep_id; [exact Hp3|reflexivity|reflexivity|reflexivity|reflexivity]. }
  rewrite Hf4. simpl. unfold resetStates. rewrite Hd4. simpl.
  f_equal. f_equal.
  - apply (crep_nil_eq _ (row_prods A B row)); [|reflexivity].
    eapply crep_id; [exact Hp4|reflexivity|reflexivity|reflexivity|reflexivity].
  - f_equal. f_equal. unfold crow. unfold keys. rewrite Hd2. reflexivity.
Qed.

(** *** Symbolic phase, complemented mask *)
Definition tstate (touched done : list nat) (i : nat) : sbyte :=
  if decide (i ∈ touched /\ i ∉ done) then B1 else FF.

Record trep (n : nat) (touched done : list nat) (acc : msa V) : Prop := mkTrep {
  tr_st : length (st acc) = n;
  tr_vl : vl acc = [];
  tr_state : forall i, i < n -> st acc !! i = Some (tstate touched done i) }.

Lemma trep_set n t d t' d' acc c s dx :
  trep n t d acc -> c < n -> s = tstate t' d' c ->
  (forall i, i <> c -> tstate t' d' i = tstate t d i) ->
  trep n t' d' (mkMsa (<[c:=s]> (st acc)) (vl acc) dx).
Proof.
  intros [H1 H2 H4] Hc Hs Ho. split; simpl; [rewrite insert_length; exact H1|exact H2|].
  intros i Hi. destruct (decide (c = i)) as [<-|Hne].
  - rewrite list_lookup_insert by lia. congruence.
  - rewrite list_lookup_insert_ne by exact Hne. rewrite Ho by congruence. apply H4, Hi.
Qed.

Lemma trep_id n t d t' d' acc acc' :
  trep n t d acc -> st acc' = st acc -> vl acc' = vl acc ->
  (forall i, tstate t' d' i = tstate t d i) -> trep n t' d' acc'.
Proof.
  intros [H1 H2 H4] Hst Hvl Ho. split; rewrite ?Hst, ?Hvl; auto.
  intros i Hi. rewrite Ho. auto.
Qed.

Lemma tstate_ext t d t' d' i : (i ∈ t' /\ i ∉ d' <-> i ∈ t /\ i ∉ d) -> tstate t' d' i = tstate t d i.
Proof. intros H. unfold tstate. rewrite (decide_ext _ _ _ _ H). reflexivity. Qed.

Theorem msaSymbolicRowC_correct (A B M : csr V) row :
  wf A -> wf B -> wf M -> cols A = rows B -> rows M = rows A -> cols M = cols B ->
  row < rows A ->
  msaSymbolicRowC A B M row (msa_clean_sym (cols B)) =
    Ok (msa_clean_sym (cols B), Z.of_nat (length (compl_cols A B M row))).
Proof.
  intros HA HB HM HAB HMA HMB Hrow. unfold msaSymbolicRowC.
  assert (forall c, c ∈ row_cols M row -> c < cols B) as Hr.
  { intros c Hc. rewrite <- HMB. eapply row_cols_range; eauto. }
  set (f := fun (an : msa V * Z) (p : nat * V * V) =>
    let '(acc, n) := an in
      s <- get_state acc (fst (fst p)) ;;
      if bool_decide (s <> INITIALIZED)
      then acc' <- setInitialized true acc (fst (fst p)) ;; Ok (acc', (n + 1)%Z)
      else Ok (acc, n)).
  rewrite (prod_loop_foldM A B row _ f); auto.
  2:{ intros j k [acc n] c a b Ha Hc Hb _. rewrite (get_Some _ _ _ Hc). reflexivity. }
  destruct (foldM_inv (fun done an => trep (cols B) (pcols done) [] (fst an)
      /\ dirtyIdx (fst an) = first_touch (pcols done)
      /\ snd an = Z.of_nat (length (first_touch (pcols done)))) f (row_prods A B row)
      (msa_clean_sym (cols B), 0%Z)) as ([acc2 n2] & Hf2 & Hp2 & Hd2 & Hn2).
  { simpl. repeat split; simpl; [apply repeat_length|].
    intros i Hi. rewrite repeat_lookup by exact Hi. unfold tstate. rewrite decide_False; [reflexivity|].
    intros [H _]; inversion H. }
  { intros done [[c a] b] rest [acc n] Hl (HI & Hd & Hn). cbn [fst snd] in *. unfold f. cbn [fst snd].
    assert (c < cols B) as Hc.
    { apply (row_prods_range A B row c a b HB). rewrite Hl. apply elem_of_app. right. left. }
    rewrite (get_state_Ok _ _ _ (tr_state _ _ _ _ HI c Hc)). rewrite bind_Ok.
    rewrite fmap_app. simpl. rewrite first_touch_snoc.
    destruct (decide (c ∈ pcols done)) as [Ht|Ht].
    - assert (tstate (pcols done) [] c = B1) as ->.
      { unfold tstate. rewrite decide_True; [reflexivity|]. split; [exact Ht|]. intros H; inversion H. }
      rewrite bool_decide_eq_false_2 by (intros H; apply H; reflexivity).
      eexists. split; [reflexivity|]. cbn [fst snd]. split; [|auto].
      eapply trep_id; [exact HI|reflexivity|reflexivity|]. intros i. apply tstate_ext.
      rewrite elem_of_app, elem_of_list_singleton. split; intros [H H']; split; auto.
      destruct H as [H| ->]; auto.
    - assert (tstate (pcols done) [] c = FF) as Hst.
      { unfold tstate. rewrite decide_False; [reflexivity|]. tauto. }
      rewrite Hst. rewrite bool_decide_eq_true_2 by discriminate.
      unfold setInitialized. rewrite (get_state_Ok _ c FF).
      2:{ rewrite (tr_state _ _ _ _ HI c Hc). congruence. }
      simpl. rewrite set_state_Ok by (rewrite (tr_st _ _ _ _ HI); exact Hc). simpl.
      eexists. split; [reflexivity|]. cbn [fst snd dirtyIdx].
      split; [|split; [rewrite Hd; reflexivity|rewrite app_length, Hn; simpl; lia]].
      eapply trep_set; [exact HI|exact Hc| |].
      + unfold tstate. rewrite decide_True; [reflexivity|].
        split; [apply elem_of_app; right; left|intros H; inversion H].
      + intros i Hi. apply tstate_ext. rewrite elem_of_app, elem_of_list_singleton. tauto. }
  rewrite Hf2. cbn [fst snd] in *. rewrite bind_Ok.
  rewrite mask_loop_foldM by (auto; lia).
  set (T := pcols (row_prods A B row)) in *.
  destruct (foldM_inv (fun done an => trep (cols B) T done (fst an)
      /\ dirtyIdx (fst an) = first_touch T
      /\ snd an = Z.of_nat (length (filter (fun x => x ∉ done) (first_touch T))))
      (fun an c => let '(acc, n) := an in
        '(acc', erased) <- erase true acc c ;; Ok (acc', if erased : bool then (n - 1)%Z else n))
      (row_cols M row) (acc2, n2)) as ([acc3 n3] & Hf3 & Hp3 & Hd3 & Hn3).
  { cbn [fst snd]. split; [exact Hp2|]. split; [exact Hd2|]. rewrite Hn2. f_equal. f_equal. symmetry.
    clear. induction (first_touch T) as [|x l IH]; [reflexivity|]. rewrite filter_cons.
    rewrite decide_True; [f_equal; exact IH|]. intros H; inversion H. }
  { intros done c rest [acc n] Hl (HI & Hd & Hn). cbn [fst snd] in *.
    assert (c < cols B) as Hc. { apply Hr. rewrite Hl. apply elem_of_app. right. left. }
    unfold erase. rewrite (get_state_Ok _ _ _ (tr_state _ _ _ _ HI c Hc)). rewrite bind_Ok.
    pose proof (filter_notin_snoc (first_touch T) done c (NoDup_first_touch T)) as Hcount.
    assert (Hv : tstate T done c = if decide (c ∈ T /\ c ∉ done) then B1 else FF) by reflexivity.
    pose proof (tr_state _ _ _ _ HI c Hc) as Hs.
    revert Hv Hs. generalize (tstate T done c). intros sv.
    rewrite (decide_ext (c ∈ first_touch T /\ c ∉ done) (c ∈ T /\ c ∉ done)) in Hcount
      by (rewrite elem_of_first_touch; reflexivity).
    destruct (decide (c ∈ T /\ c ∉ done)) as [Ht|Ht]; intros -> Hs.
    - rewrite bool_decide_eq_false_2 by discriminate.
      rewrite set_state_Ok by (rewrite (tr_st _ _ _ _ HI); exact Hc). simpl.
      eexists. split; [reflexivity|]. cbn [fst snd dirtyIdx]. split; [|split; [exact Hd|]].
      + eapply trep_set; [exact HI|exact Hc| |].
        * unfold tstate. rewrite decide_False; [reflexivity|]. rewrite elem_of_app, elem_of_list_singleton. tauto.
        * intros i Hi. apply tstate_ext. rewrite elem_of_app, elem_of_list_singleton. tauto.
      + lia.
    - rewrite bool_decide_eq_true_2 by reflexivity.
      eexists. split; [reflexivity|]. cbn [fst snd dirtyIdx]. split; [|split; [exact Hd|]].
      + eapply trep_id; [exact HI|reflexivity|reflexivity|]. intros i. apply tstate_ext.
        rewrite elem_of_app, elem_of_list_singleton.
        destruct (decide (i = c)) as [->|]; tauto.
      + lia. }
  rewrite Hf3. cbn [fst snd] in *. rewrite bind_Ok.
  unfold resetStates. rewrite Hd3.
  destruct (foldM_inv (fun done acc => trep (cols B) T (row_cols M row ++ done) acc)
      (clear false true) (first_touch T) acc3) as (acc4 & Hf4 & Hp4).
  { rewrite app_nil_r. exact Hp3. }
  { intros done c rest acc Hl HI.
    assert (c ∈ T) as HcT. { rewrite <- elem_of_first_touch, Hl. apply elem_of_app. right. left. }
    assert (c < cols B) as Hc.
    { apply elem_of_list_fmap in HcT as ([[c' a] b] & -> & Hin). eapply row_prods_range; eauto. }
    pose proof (tr_state _ _ _ _ HI c Hc) as Hs.
    unfold clear. rewrite (get_state_Ok _ _ _ Hs). rewrite bind_Ok.
    assert (forall i, i <> c -> tstate T (row_cols M row ++ done ++ [c]) i = tstate T (row_cols M row ++ done) i) as Ho.
    { intros i Hi. apply tstate_ext. rewrite !elem_of_app, elem_of_list_singleton. tauto. }
    assert (tstate T (row_cols M row ++ done ++ [c]) c = FF) as Hself.
    { unfold tstate. rewrite decide_False; [reflexivity|]. rewrite !elem_of_app, elem_of_list_singleton. tauto. }
    destruct (bool_decide (tstate T (row_cols M row ++ done) c = DEFAULT_STATE true)) eqn:Hb.
    - apply bool_decide_eq_true_1 in Hb. exists acc. split; [reflexivity|].
      eapply trep_id; [exact HI|reflexivity|reflexivity|]. intros i.
      destruct (decide (i = c)) as [->|Hne]; [|auto]. rewrite Hself, Hb. reflexivity.
    - rewrite set_state_Ok by (rewrite (tr_st _ _ _ _ HI); exact Hc). simpl.
      eexists. split; [reflexivity|]. eapply trep_set; [exact HI|exact Hc|rewrite Hself; reflexivity|exact Ho]. }
  rewrite Hf4. simpl. f_equal. f_equal.
  - unfold msa_clean_sym. destruct Hp4 as [H1 H2 H4]. rewrite H2. f_equal.
    apply list_eq_repeat; [exact H1|]. intros i Hi. rewrite H4 by exact Hi. f_equal.
    unfold tstate. rewrite decide_False; [reflexivity|].
    rewrite elem_of_app, elem_of_first_touch. tauto.
  - rewrite Hn3. unfold compl_cols. unfold T. rewrite row_prods_cols. reflexivity.
Qed.
End MsaCompl.
