(** Correctness of the MSA row kernels. *)
From stdpp Require Import sorting.
From Verif Require Import Base Spec KernelBase BaseProofs ComplProofs MsaModel.

Section MsaProofs.
Context {V : Type} (mul add : V -> V -> V).
Notation colval := (colval mul add).
Notation pcols := (fmap (fun p : nat * V * V => fst (fst p))).

Lemma repeat_lookup {A} (a : A) n i : i < n -> repeat a n !! i = Some a.
Proof.
  revert i. induction n as [|n IH]; intros [|i] H; simpl; [lia|lia|reflexivity|apply IH; lia].
Qed.

Lemma list_eq_repeat {A} (a : A) n (l : list A) :
  length l = n -> (forall i, i < n -> l !! i = Some a) -> l = repeat a n.
Proof.
  intros Hl H. apply list_eq. intros i. destruct (decide (i < n)) as [Hi|Hi].
  - rewrite (H i Hi), repeat_lookup by exact Hi. reflexivity.
  - rewrite lookup_ge_None_2 by lia. rewrite lookup_ge_None_2; [reflexivity|].
    rewrite repeat_length. lia.
Qed.

(** *** Basic operation lemmas *)
Lemma get_state_Ok (acc : msa V) i s : st acc !! i = Some s -> get_state acc i = Ok s.
Proof.
  intros H. unfold get_state, in_range.
  assert (i < length (st acc)) by (apply lookup_lt_is_Some_1; eauto).
  rewrite assert_true by (apply Nat.ltb_lt; assumption). simpl. apply get_Some, H.
Qed.

Lemma get_value_Ok (acc : msa V) i v : i < length (st acc) ->
  vl acc !! i = Some (Some v) -> get_value acc i = Ok v.
Proof.
  intros Hl H. unfold get_value, in_range.
  rewrite assert_true by (apply Nat.ltb_lt; assumption). simpl. apply getI_Some, H.
Qed.

Lemma set_state_Ok (acc : msa V) i s : i < length (st acc) ->
  set_state acc i s = Ok (mkMsa (<[i:=s]> (st acc)) (vl acc) (dirtyIdx acc)).
Proof. intros H. unfold set_state. rewrite set_Ok by exact H. reflexivity. Qed.

Lemma set_value_Ok (acc : msa V) i v : i < length (vl acc) ->
  set_value acc i v = Ok (mkMsa (st acc) (<[i:=v]> (vl acc)) (dirtyIdx acc)).
Proof. intros H. unfold set_value. rewrite set_Ok by exact H. reflexivity. Qed.

(** *** Plain mask *)
Definition pstate (mask : list nat) (ps : list (nat * V * V)) (i : nat) : sbyte :=
  if decide (i ∈ mask) then match colval ps i with None => B0 | Some _ => B1 end else FF.
Definition pvalue (mask : list nat) (ps : list (nat * V * V)) (i : nat) : option V :=
  if decide (i ∈ mask) then colval ps i else None.

Record prep (n : nat) (mask : list nat) (ps : list (nat * V * V)) (acc : msa V) : Prop := mkPrep {
  pr_st : length (st acc) = n;
  pr_vl : length (vl acc) = n;
  pr_dirty : dirtyIdx acc = [];
  pr_state : forall i, i < n -> st acc !! i = Some (pstate mask ps i);
  pr_value : forall i, i < n -> vl acc !! i = Some (pvalue mask ps i) }.

Lemma prep_clean n ps : prep n [] ps (msa_clean n).
Proof.
  split; simpl.
  - apply repeat_length.
  - apply repeat_length.
  - reflexivity.
  - intros i Hi. rewrite repeat_lookup by exact Hi. reflexivity.
  - intros i Hi. rewrite repeat_lookup by exact Hi. reflexivity.
Qed.

Lemma prep_nil_eq n ps acc : prep n [] ps acc -> acc = msa_clean n.
Proof.
  intros [H1 H2 H3 H4 H5]. destruct acc as [s v d]; simpl in *. unfold msa_clean. subst d.
  f_equal; apply list_eq_repeat; auto.
Qed.

Lemma setAllowed_prep n mask c acc : prep n mask [] acc -> c < n -> c ∉ mask ->
  exists acc', setAllowed false acc c = Ok acc' /\ prep n (mask ++ [c]) [] acc'.
Proof.
  intros [H1 H2 H3 H4 H5] Hc Hnin. unfold setAllowed.
  rewrite (get_state_Ok acc c FF).
  2:{ rewrite H4 by exact Hc. unfold pstate. rewrite decide_False by exact Hnin. reflexivity. }
  simpl. rewrite set_state_Ok by lia. eexists. split; [reflexivity|].
  split; simpl; [rewrite insert_length; exact H1|exact H2|exact H3| |].
  - intros i Hi. unfold pstate. destruct (decide (c = i)) as [->|Hne].
    + rewrite list_lookup_insert by lia. rewrite decide_True; [reflexivity|].
      apply elem_of_app. right. left.
    + rewrite list_lookup_insert_ne by exact Hne. rewrite H4 by exact Hi. unfold pstate.
      f_equal. destruct (decide (i ∈ mask)) as [Hin|Hin].
      * rewrite decide_True; [reflexivity|]. apply elem_of_app. left. exact Hin.
      * rewrite decide_False; [reflexivity|]. rewrite elem_of_app, elem_of_list_singleton. intuition.
  - intros i Hi. rewrite H5 by exact Hi. unfold pvalue. simpl. f_equal.
    destruct (decide (i ∈ mask)), (decide (i ∈ mask ++ [c])); reflexivity.
Qed.

Lemma setAllowed_loop n mask : NoDup mask -> (forall c, c ∈ mask -> c < n) ->
  exists acc', foldM (fun acc c => setAllowed false acc c) mask (msa_clean n) = Ok acc' /\ prep n mask [] acc'.
Proof.
  intros Hnd Hr. apply (foldM_inv (fun done acc => prep n done [] acc)).
  - apply prep_clean.
  - intros done a rest s Hl HI. apply setAllowed_prep; [exact HI| |].
    + apply Hr. rewrite Hl. apply elem_of_app. right. left.
    + rewrite Hl in Hnd. apply NoDup_app in Hnd as (_ & Hd & _). intros Hin.
      apply (Hd a Hin). left.
Qed.

Definition step1A (acc : msa V) (p : nat * V * V) : res (msa V) :=
  let '(c, a, b) := p in
  s <- get_state acc c ;;
  if bool_decide (s = ALLOWED false) then
    acc <- set_value acc c (Some (mul a b)) ;; set_state acc c INITIALIZED
  else if bool_decide (s = INITIALIZED) then
    v <- get_value acc c ;; set_value acc c (Some (add v (mul a b)))
  else Ok acc.

Definition step2A (acc : msa V) (p : nat * V * V) : res (msa V) :=
  let '(c, a, b) := p in
  s <- get_state acc c ;;
  if bool_decide (s = NOT_ALLOWED false) then Ok acc
  else if bool_decide (s = ALLOWED false) then
    acc <- set_value acc c (Some (mul a b)) ;; set_state acc c INITIALIZED
  else
    _ <- assert_ (bool_decide (s = INITIALIZED)) ;;
    v <- get_value acc c ;; set_value acc c (Some (add v (mul a b))).

Lemma step2A_step1A acc p : step2A acc p = step1A acc p.
Proof.
  destruct p as [[c a] b]. unfold step2A, step1A.
  destruct (get_state acc c) as [s|f]; [|reflexivity]. simpl.
  destruct s; reflexivity.
Qed.

Lemma body1A_step (A B : csr V) j k acc c a b :
  values A !! j = Some a -> colids B !! k = Some c -> values B !! k = Some b ->
  body1A mul add A B j k acc = step1A acc (c, a, b).
Proof.
  intros Ha Hc Hb. unfold body1A, step1A. rewrite (get_Some _ _ _ Hc). simpl.
  destruct (get_state acc c) as [s|f]; [|reflexivity]. simpl.
  rewrite (get_Some _ _ _ Ha), (get_Some _ _ _ Hb). reflexivity.
Qed.

Lemma body2A_step (A B : csr V) j k acc c a b :
  values A !! j = Some a -> colids B !! k = Some c -> values B !! k = Some b ->
  body2A mul add A B j k acc = step2A acc (c, a, b).
Proof.
  intros Ha Hc Hb. unfold body2A, step2A. rewrite (get_Some _ _ _ Hc). simpl.
  destruct (get_state acc c) as [s|f]; [|reflexivity]. simpl.
  rewrite (get_Some _ _ _ Ha), (get_Some _ _ _ Hb). reflexivity.
Qed.

Lemma pstate_snoc_ne mask ps c a b i : c <> i -> pstate mask (ps ++ [(c, a, b)]) i = pstate mask ps i.
Proof. intros H. unfold pstate. rewrite colval_snoc. rewrite (decide_False (P := c = i)) by exact H. reflexivity. Qed.
Lemma pvalue_snoc_ne mask ps c a b i : c <> i -> pvalue mask (ps ++ [(c, a, b)]) i = pvalue mask ps i.
Proof. intros H. unfold pvalue. rewrite colval_snoc. rewrite (decide_False (P := c = i)) by exact H. reflexivity. Qed.

Lemma step1A_prep n mask ps acc c a b : prep n mask ps acc -> c < n ->
  exists acc', step1A acc (c, a, b) = Ok acc' /\ prep n mask (ps ++ [(c, a, b)]) acc'.
Proof.
  intros [H1 H2 H3 H4 H5] Hc. unfold step1A.
  pose proof (H4 c Hc) as Hs. pose proof (H5 c Hc) as Hv.
  rewrite (get_state_Ok _ _ _ Hs). unfold pstate in *. unfold pvalue in Hv. simpl.
  destruct (decide (c ∈ mask)) as [Hin|Hnin].
  - destruct (colval ps c) as [v|] eqn:Hcv.
    + (* initialised: accumulate *)
      rewrite bool_decide_eq_false_2 by discriminate. rewrite bool_decide_eq_true_2 by reflexivity.
      rewrite (get_value_Ok acc c v) by (auto; lia). simpl. rewrite set_value_Ok by lia.
      eexists. split; [reflexivity|]. split; simpl; [exact H1|rewrite insert_length; exact H2|exact H3| |].
      * intros i Hi. destruct (decide (c = i)) as [<-|Hne].
        -- rewrite Hs. unfold pstate. rewrite decide_True by exact Hin.
           rewrite colval_snoc, decide_True by reflexivity. reflexivity.
        -- rewrite pstate_snoc_ne by exact Hne. apply H4, Hi.
      * intros i Hi. destruct (decide (c = i)) as [<-|Hne].
        -- rewrite list_lookup_insert by lia. unfold pvalue. rewrite decide_True by exact Hin.
           rewrite colval_snoc, decide_True by reflexivity. rewrite Hcv. reflexivity.
        -- rewrite pvalue_snoc_ne by exact Hne. rewrite list_lookup_insert_ne by exact Hne. apply H5, Hi.
    + (* first product *)
      rewrite bool_decide_eq_true_2 by reflexivity.
      rewrite set_value_Ok by lia. simpl. rewrite set_state_Ok by (simpl; lia). simpl.
      eexists. split; [reflexivity|].
      split; simpl; [rewrite insert_length; exact H1|rewrite insert_length; exact H2|exact H3| |].
      * intros i Hi. destruct (decide (c = i)) as [<-|Hne].
        -- rewrite list_lookup_insert by lia. unfold pstate. rewrite decide_True by exact Hin.
           rewrite colval_snoc, decide_True by reflexivity. reflexivity.
        -- rewrite pstate_snoc_ne by exact Hne. rewrite list_lookup_insert_ne by exact Hne. apply H4, Hi.
      * intros i Hi. destruct (decide (c = i)) as [<-|Hne].
        -- rewrite list_lookup_insert by lia. unfold pvalue. rewrite decide_True by exact Hin.
           rewrite colval_snoc, decide_True by reflexivity. rewrite Hcv. reflexivity.
        -- rewrite pvalue_snoc_ne by exact Hne. rewrite list_lookup_insert_ne by exact Hne. apply H5, Hi.
  - rewrite 2!bool_decide_eq_false_2 by discriminate.
    exists acc. split; [reflexivity|]. split; auto.
    + intros i Hi. destruct (decide (c = i)) as [<-|Hne].
      * rewrite Hs. unfold pstate. rewrite decide_False by exact Hnin. reflexivity.
      * rewrite pstate_snoc_ne by exact Hne. apply H4, Hi.
    + intros i Hi. destruct (decide (c = i)) as [<-|Hne].
      * rewrite Hv. unfold pvalue. rewrite decide_False by exact Hnin. reflexivity.
      * rewrite pvalue_snoc_ne by exact Hne. apply H5, Hi.
Qed.

Lemma prod_fold_prep n mask (ps : list (nat * V * V)) acc :
  prep n mask [] acc -> (forall c a b, (c, a, b) ∈ ps -> c < n) ->
  exists acc', foldM step1A ps acc = Ok acc' /\ prep n mask ps acc'.
Proof.
  intros H0 Hr. apply (foldM_inv (fun done acc => prep n mask done acc)); [exact H0|].
  intros done [[c a] b] rest s Hl HI. apply step1A_prep; [exact HI|].
  apply (Hr c a b). rewrite Hl. apply elem_of_app. right. left.
Qed.

Definition gstep (so : msa V * out V) (c : nat) : res (msa V * out V) :=
  let '(acc, o) := so in
  s <- get_state acc c ;;
  o' <- (if bool_decide (s = INITIALIZED)
         then v <- get_value acc c ;; emit o c v
         else Ok o) ;;
  acc' <- clear true false acc c ;;
  Ok (acc', o').

Notation mrow := (mrow mul add).

Lemma clear_prep n mask ps acc c : prep n (c :: mask) ps acc -> c < n -> c ∉ mask ->
  exists acc', clear true false acc c = Ok acc' /\ prep n mask ps acc'.
Proof.
  intros [H1 H2 H3 H4 H5] Hc Hnin. unfold clear.
  pose proof (H4 c Hc) as Hs. unfold pstate in Hs. rewrite decide_True in Hs by left.
  rewrite (get_state_Ok _ _ _ Hs). simpl.
  rewrite bool_decide_eq_false_2 by (destruct (colval ps c); discriminate).
  rewrite set_state_Ok by lia. simpl. rewrite set_value_Ok by (simpl; lia). simpl.
  eexists. split; [reflexivity|].
  split; simpl; [rewrite insert_length; exact H1|rewrite insert_length; exact H2|exact H3| |].
  - intros i Hi. destruct (decide (c = i)) as [<-|Hne].
    + rewrite list_lookup_insert by lia. unfold pstate. rewrite decide_False by exact Hnin. reflexivity.
    + rewrite list_lookup_insert_ne by exact Hne. rewrite H4 by exact Hi. unfold pstate.
      destruct (decide (i ∈ mask)) as [Hin|Hin].
      * rewrite decide_True by (right; exact Hin). reflexivity.
      * rewrite decide_False; [reflexivity|]. rewrite elem_of_cons. intuition congruence.
  - intros i Hi. destruct (decide (c = i)) as [<-|Hne].
    + rewrite list_lookup_insert by lia. unfold pvalue. rewrite decide_False by exact Hnin. reflexivity.
    + rewrite list_lookup_insert_ne by exact Hne. rewrite H5 by exact Hi. unfold pvalue.
      destruct (decide (i ∈ mask)) as [Hin|Hin].
      * rewrite decide_True by (right; exact Hin). reflexivity.
      * rewrite decide_False; [reflexivity|]. rewrite elem_of_cons. intuition congruence.
Qed.

Lemma gather_loop n mask ps acc dn cap :
  prep n mask ps acc -> NoDup mask -> (forall c, c ∈ mask -> c < n) ->
  length dn + length (mrow ps mask) <= cap ->
  foldM gstep mask (acc, mkOut dn cap) = Ok (msa_clean n, mkOut (dn ++ mrow ps mask) cap).
Proof.
  revert acc dn. induction mask as [|c mask IH]; intros acc dn Hp Hnd Hr Hcap.
  - simpl. rewrite app_nil_r. rewrite (prep_nil_eq _ _ _ Hp). reflexivity.
  - simpl. apply NoDup_cons in Hnd as [Hnin Hnd].
    assert (c < n) as Hc by (apply Hr; left).
    destruct (clear_prep n mask ps acc c Hp Hc Hnin) as (acc' & Hcl & Hp').
    pose proof (pr_state _ _ _ _ Hp c Hc) as Hs. unfold pstate in Hs. rewrite decide_True in Hs by left.
    pose proof (pr_value _ _ _ _ Hp c Hc) as Hv. unfold pvalue in Hv. rewrite decide_True in Hv by left.
    rewrite (get_state_Ok _ _ _ Hs). rewrite bind_Ok.
    rewrite mrow_cons in Hcap |- *.
    destruct (colval ps c) as [v|].
    + rewrite bool_decide_eq_true_2 by reflexivity.
      rewrite (get_value_Ok acc c v); [|rewrite (pr_st _ _ _ _ Hp); exact Hc|exact Hv].
      rewrite bind_Ok. simpl in Hcap. rewrite emit_Ok by (simpl; lia). simpl. rewrite Hcl. simpl.
      rewrite IH; auto.
      * rewrite <- app_assoc. reflexivity.
      * intros c' Hc'. apply Hr. right. exact Hc'.
      * rewrite app_length. simpl. lia.
    + rewrite bool_decide_eq_false_2 by discriminate. simpl. rewrite Hcl. simpl. apply IH; auto.
      intros c' Hc'. apply Hr. right. exact Hc'.
Qed.

(** Main result for the plain-mask kernels, both layouts. *)
Theorem msaNumericRow_correct (two : bool) (A B M : csr V) row dn cap :
  wf A -> wf B -> wf M -> cols A = rows B -> rows M = rows A -> cols M = cols B ->
  row < rows A -> NoDup (row_cols M row) ->
  length dn + length (spec_row mul add A B M row) <= cap ->
  msaNumericRow mul add two A B M row (msa_clean (cols B)) (mkOut dn cap) =
    Ok (msa_clean (cols B), mkOut (dn ++ spec_row mul add A B M row) cap).
Proof.
  intros HA HB HM HAB HMA HMB Hrow Hnd Hcap. unfold msaNumericRow.
  rewrite mask_loop_foldM by (auto; lia).
  destruct (setAllowed_loop (cols B) (row_cols M row) Hnd) as (acc1 & -> & Hp1).
  { intros c Hc. rewrite <- HMB. eapply row_cols_range; eauto. }
  simpl. rewrite (prod_loop_foldM A B row _ step1A); [|exact HA|exact HB|exact HAB|exact Hrow|].
  2:{ intros j k s c a b Ha Hc Hb _. destruct two.
      - rewrite (body2A_step A B j k s c a b Ha Hc Hb). apply step2A_step1A.
      - apply (body1A_step A B j k s c a b Ha Hc Hb). }
  destruct (prod_fold_prep (cols B) (row_cols M row) (row_prods A B row) acc1 Hp1) as (acc2 & -> & Hp2).
  { intros c a b. apply row_prods_range, HB. }
  simpl. rewrite mask_loop_foldM by (auto; lia).
  rewrite <- mrow_spec in Hcap |- *.
  rewrite <- (gather_loop (cols B) (row_cols M row) (row_prods A B row) acc2 dn cap); auto.
  intros c Hc. rewrite <- HMB. eapply row_cols_range; eauto.
Qed.

(** *** Symbolic, plain mask *)
Definition sstate (mask : list nat) (touched : list nat) (i : nat) : sbyte :=
  if decide (i ∈ mask) then (if decide (i ∈ touched) then FF else B0) else FF.

Record srep (n : nat) (mask touched : list nat) (acc : msa V) : Prop := mkSrep {
  sr_st : length (st acc) = n;
  sr_vl : vl acc = [];
  sr_dirty : dirtyIdx acc = [];
  sr_state : forall i, i < n -> st acc !! i = Some (sstate mask touched i) }.

Lemma srep_nil_eq n t acc : srep n [] t acc -> acc = msa_clean_sym n.
Proof.
  intros [H1 H2 H3 H4]. destruct acc as [s v d]; simpl in *. unfold msa_clean_sym. subst.
  f_equal. apply list_eq_repeat; auto.
Qed.

Lemma setAllowed_srep n mask c acc : srep n mask [] acc -> c < n -> c ∉ mask ->
  exists acc', setAllowed false acc c = Ok acc' /\ srep n (mask ++ [c]) [] acc'.
Proof.
  intros [H1 H2 H3 H4] Hc Hnin. unfold setAllowed.
  rewrite (get_state_Ok acc c FF).
  2:{ rewrite H4 by exact Hc. unfold sstate. rewrite decide_False by exact Hnin. reflexivity. }
  simpl. rewrite set_state_Ok by lia. eexists. split; [reflexivity|].
  split; simpl; [rewrite insert_length; exact H1|exact H2|exact H3|].
  intros i Hi. unfold sstate. destruct (decide (c = i)) as [->|Hne].
  - rewrite list_lookup_insert by lia. rewrite decide_True; [reflexivity|].
    apply elem_of_app. right. left.
  - rewrite list_lookup_insert_ne by exact Hne. rewrite H4 by exact Hi. unfold sstate.
    f_equal. destruct (decide (i ∈ mask)) as [Hin|Hin].
    + rewrite (decide_True (P := i ∈ mask ++ [c])); [reflexivity|]. apply elem_of_app. left. exact Hin.
    + rewrite (decide_False (P := i ∈ mask ++ [c])); [reflexivity|].
      rewrite elem_of_app, elem_of_list_singleton. intuition.
Qed.

Definition cnt (mask touched : list nat) : nat := length (filter (fun c => c ∈ touched) mask).

Lemma cnt_snoc mask touched c : NoDup mask ->
  cnt mask (touched ++ [c]) =
  if decide (c ∈ mask) then (if decide (c ∈ touched) then cnt mask touched else cnt mask touched + 1)
  else cnt mask touched.
Proof.
  unfold cnt. induction mask as [|m mask IH]; intros Hnd; [reflexivity|].
  apply NoDup_cons in Hnd as [Hnin Hnd]. specialize (IH Hnd).
  rewrite 2!filter_cons.
  destruct (decide (m ∈ touched ++ [c])) as [H1|H1]; destruct (decide (m ∈ touched)) as [H2|H2].
  - cbn [length]. rewrite IH.
    destruct (decide (c = m)) as [->|Hne].
    + rewrite (decide_False (P := m ∈ mask)) by exact Hnin.
      rewrite (decide_True (P := m ∈ m :: mask)) by left. rewrite (decide_True (P := m ∈ touched)) by exact H2. reflexivity.
    + destruct (decide (c ∈ mask)) as [Hc|Hc].
      * rewrite (decide_True (P := c ∈ m :: mask)) by (right; exact Hc). destruct (decide (c ∈ touched)); lia.
      * rewrite (decide_False (P := c ∈ m :: mask)); [reflexivity|]. rewrite elem_of_cons. intuition.
  - assert (m = c) as -> by (rewrite elem_of_app, elem_of_list_singleton in H1; intuition).
    cbn [length]. rewrite IH.
    rewrite (decide_False (P := c ∈ mask)) by exact Hnin.
    rewrite (decide_True (P := c ∈ c :: mask)) by left. rewrite (decide_False (P := c ∈ touched)) by exact H2. lia.
  - exfalso. apply H1. apply elem_of_app. left. exact H2.
  - rewrite IH. destruct (decide (c = m)) as [->|Hne].
    + exfalso. apply H1. apply elem_of_app. right. left.
    + destruct (decide (c ∈ mask)) as [Hc|Hc].
      * rewrite (decide_True (P := c ∈ m :: mask)) by (right; exact Hc). reflexivity.
      * rewrite (decide_False (P := c ∈ m :: mask)); [reflexivity|]. rewrite elem_of_cons. intuition.
Qed.

Lemma erase_srep n mask t acc c : srep n mask t acc -> c < n ->
  exists acc' e, erase false acc c = Ok (acc', e) /\ srep n mask (t ++ [c]) acc' /\
    e = bool_decide (c ∈ mask /\ c ∉ t).
Proof.
  intros [H1 H2 H3 H4] Hc. unfold erase.
  pose proof (H4 c Hc) as Hs. rewrite (get_state_Ok _ _ _ Hs). simpl.
  assert (forall i, c <> i -> sstate mask (t ++ [c]) i = sstate mask t i) as Hother.
  { intros i Hne. unfold sstate. destruct (decide (i ∈ mask)); [|reflexivity].
    destruct (decide (i ∈ t)) as [Hin|Hin].
    - rewrite decide_True; [reflexivity|]. apply elem_of_app. left. exact Hin.
    - rewrite decide_False; [reflexivity|]. rewrite elem_of_app, elem_of_list_singleton. intuition. }
  assert (sstate mask (t ++ [c]) c = FF) as Hself.
  { unfold sstate. destruct (decide (c ∈ mask)); [|reflexivity].
    rewrite decide_True; [reflexivity|]. apply elem_of_app. right. left. }
  assert (Hv : sstate mask t c = if decide (c ∈ mask) then if decide (c ∈ t) then FF else B0 else FF) by reflexivity.
  revert Hv Hs. generalize (sstate mask t c). intros sv.
  destruct (decide (c ∈ mask)) as [Hin|Hin]; [destruct (decide (c ∈ t)) as [Ht|Ht]|]; intros -> Hs.
  - rewrite bool_decide_eq_true_2 by reflexivity. exists acc, false. split; [reflexivity|]. split.
    + split; auto. intros i Hi. destruct (decide (c = i)) as [<-|Hne].
      * rewrite Hself. exact Hs.
      * rewrite Hother by exact Hne. apply H4, Hi.
    + symmetry. apply bool_decide_eq_false_2. tauto.
  - rewrite bool_decide_eq_false_2 by discriminate. rewrite set_state_Ok by lia. simpl.
    eexists _, true. split; [reflexivity|]. split.
    + split; simpl; [rewrite insert_length; exact H1|exact H2|exact H3|].
      intros i Hi. destruct (decide (c = i)) as [<-|Hne].
      * rewrite list_lookup_insert by lia. rewrite Hself. reflexivity.
      * rewrite list_lookup_insert_ne by exact Hne. rewrite Hother by exact Hne. apply H4, Hi.
    + symmetry. apply bool_decide_eq_true_2. tauto.
  - rewrite bool_decide_eq_true_2 by reflexivity. exists acc, false. split; [reflexivity|]. split.
    + split; auto. intros i Hi. destruct (decide (c = i)) as [<-|Hne].
      * rewrite Hself. exact Hs.
      * rewrite Hother by exact Hne. apply H4, Hi.
    + symmetry. apply bool_decide_eq_false_2. tauto.
Qed.

Lemma clear_srep n mask t acc c : srep n (c :: mask) t acc -> c < n -> c ∉ mask ->
  exists acc', clear false false acc c = Ok acc' /\ srep n mask t acc'.
Proof.
  intros [H1 H2 H3 H4] Hc Hnin. unfold clear.
  pose proof (H4 c Hc) as Hs. rewrite (get_state_Ok _ _ _ Hs). simpl.
  assert (forall i, c <> i -> sstate (c :: mask) t i = sstate mask t i) as Hother.
  { intros i Hne. unfold sstate. destruct (decide (i ∈ mask)) as [Hin|Hin].
    - rewrite (decide_True (P := i ∈ c :: mask)) by (right; exact Hin). reflexivity.
    - rewrite (decide_False (P := i ∈ c :: mask)); [reflexivity|]. rewrite elem_of_cons. intuition. }
  assert (sstate mask t c = FF) as Hself by (unfold sstate; rewrite decide_False by exact Hnin; reflexivity).
  destruct (bool_decide (sstate (c :: mask) t c = DEFAULT_STATE false)) eqn:Hd.
  - apply bool_decide_eq_true_1 in Hd. exists acc. split; [reflexivity|]. split; auto.
    intros i Hi. destruct (decide (c = i)) as [<-|Hne].
    + rewrite Hself. rewrite Hs, Hd. reflexivity.
    + rewrite <- Hother by exact Hne. apply H4, Hi.
  - rewrite set_state_Ok by lia. simpl. eexists. split; [reflexivity|].
    split; simpl; [rewrite insert_length; exact H1|exact H2|exact H3|].
    intros i Hi. destruct (decide (c = i)) as [<-|Hne].
    + rewrite list_lookup_insert by lia. rewrite Hself. reflexivity.
    + rewrite list_lookup_insert_ne by exact Hne. rewrite <- Hother by exact Hne. apply H4, Hi.
Qed.

Lemma clear_loop_s n mask t acc : srep n mask t acc -> NoDup mask -> (forall c, c ∈ mask -> c < n) ->
  foldM (fun acc c => clear false false acc c) mask acc = Ok (msa_clean_sym n).
Proof.
  revert acc. induction mask as [|c mask IH]; intros acc Hp Hnd Hr.
  - simpl. rewrite (srep_nil_eq _ _ _ Hp). reflexivity.
  - apply NoDup_cons in Hnd as [Hnin Hnd].
    destruct (clear_srep n mask t acc c Hp) as (acc' & Hcl & Hp'); [apply Hr; left|exact Hnin|].
    simpl. rewrite Hcl. simpl. apply IH; auto. intros c' Hc'. apply Hr. right. exact Hc'.
Qed.

Lemma spec_row_length (A B M : csr V) row :
  length (spec_row mul add A B M row) = cnt (row_cols M row) (touched_cols A B row).
Proof.
  rewrite <- mrow_spec, <- row_prods_cols. unfold cnt.
  induction (row_cols M row) as [|c mask IH]; [reflexivity|].
  rewrite mrow_cons, filter_cons.
  destruct (colval (row_prods A B row) c) as [v|] eqn:Hcv.
  - rewrite decide_True; [simpl; f_equal; exact IH|].
    destruct (decide (c ∈ pcols (row_prods A B row))) as [H|H]; [exact H|].
    apply (colval_None mul add) in H. congruence.
  - rewrite decide_False; [exact IH|]. apply (colval_None mul add). exact Hcv.
Qed.

Theorem msaSymbolicRow_correct (A B M : csr V) row :
  wf A -> wf B -> wf M -> cols A = rows B -> rows M = rows A -> cols M = cols B ->
  row < rows A -> NoDup (row_cols M row) ->
  msaSymbolicRow A B M row (msa_clean_sym (cols B)) =
    Ok (msa_clean_sym (cols B), length (spec_row mul add A B M row)).
Proof.
  intros HA HB HM HAB HMA HMB Hrow Hnd. unfold msaSymbolicRow.
  assert (forall c, c ∈ row_cols M row -> c < cols B) as Hr.
  { intros c Hc. rewrite <- HMB. eapply row_cols_range; eauto. }
  rewrite mask_loop_foldM by (auto; lia).
  destruct (foldM_inv (fun done acc => srep (cols B) done [] acc)
              (fun acc c => setAllowed false acc c) (row_cols M row) (msa_clean_sym (cols B)))
    as (acc1 & Hf & Hp1).
  { split; simpl; [apply repeat_length|reflexivity|reflexivity|].
    intros i Hi. rewrite repeat_lookup by exact Hi. reflexivity. }
  { intros done a rest s Hl HI. apply setAllowed_srep; [exact HI| |].
    - apply Hr. rewrite Hl. apply elem_of_app. right. left.
    - rewrite Hl in Hnd. apply NoDup_app in Hnd as (_ & Hd & _). intros Hin. apply (Hd a Hin). left. }
  rewrite Hf. simpl.
  set (f := fun (an : msa V * nat) (p : nat * V * V) =>
    let '(acc, n) := an in
    '(acc', erased) <- erase false acc (fst (fst p)) ;;
      Ok (acc', if erased : bool then n + 1 else n)).
  rewrite (prod_loop_foldM A B row _ f); auto.
  2:{ intros j k [acc n] c a b Ha Hc Hb _. rewrite (get_Some _ _ _ Hc). reflexivity. }
  destruct (foldM_inv (fun done an => srep (cols B) (row_cols M row) (pcols done) (fst an)
              /\ snd an = cnt (row_cols M row) (pcols done)) f (row_prods A B row) (acc1, 0))
    as ([acc2 n] & Hf2 & Hp2 & Hn).
  { split; simpl; [exact Hp1|]. unfold cnt. clear. induction (row_cols M row) as [|c l IH]; [reflexivity|].
    rewrite filter_cons. rewrite decide_False; [exact IH|]. intros H. inversion H. }
  { intros done [[c a] b] rest [acc n] Hl [HI Hn]. simpl in HI, Hn. unfold f. cbn [fst snd].
    assert (c < cols B) as Hc.
    { apply (row_prods_range A B row c a b HB). rewrite Hl. apply elem_of_app. right. left. }
    destruct (erase_srep _ _ _ _ c HI Hc) as (acc' & e & He & Hp' & Hee).
    rewrite He. simpl. eexists. split; [reflexivity|]. rewrite fmap_app. simpl. split; [exact Hp'|].
    rewrite cnt_snoc by exact Hnd. subst n e.
    destruct (decide (c ∈ row_cols M row)) as [Hm|Hm]; [destruct (decide (c ∈ pcols done)) as [Ht|Ht]|].
    - rewrite bool_decide_eq_false_2 by tauto. reflexivity.
    - rewrite bool_decide_eq_true_2 by tauto. reflexivity.
    - rewrite bool_decide_eq_false_2 by tauto. reflexivity. }
  rewrite Hf2. simpl. simpl in Hp2, Hn.
  rewrite mask_loop_foldM by (auto; lia).
  rewrite (clear_loop_s _ _ _ _ Hp2 Hnd Hr). simpl. rewrite Hn.
  rewrite spec_row_length. rewrite row_prods_cols. reflexivity.
Qed.
End MsaProofs.
