(** Correctness of the MCA row kernels. *)
From Verif Require Import Base Spec KernelBase BaseProofs ComplProofs MsaModel MsaProofs McaModel.

Lemma SSorted_lookup_lt (l : list nat) i j a b :
  StronglySorted lt l -> l !! i = Some a -> l !! j = Some b -> i < j -> a < b.
Proof.
  intros Hs. revert i j. induction Hs as [|x l Hs IH Hf]; intros i j Hi Hj Hij; [discriminate|].
  destruct j as [|j]; [lia|]. simpl in Hj. destruct i as [|i]; simpl in Hi.
  - inversion Hi; subst. rewrite List.Forall_forall in Hf. apply Hf.
    apply elem_of_list_In. eapply elem_of_list_lookup_2; eauto.
  - eapply IH; eauto. lia.
Qed.

Lemma SSorted_NoDup (l : list nat) : StronglySorted lt l -> NoDup l.
Proof.
  induction 1 as [|x l Hs IH Hf]; constructor; [|exact IH].
  intros Hin. rewrite List.Forall_forall in Hf. specialize (Hf x (proj1 (elem_of_list_In _ _) Hin)). lia.
Qed.

Section Merge.
Context {V S : Type}.

(** The merge visits every entry of B's row: entries outside the mask are skipped,
    entries in the mask are handed to [onMatch] with the right mask position. *)
Lemma mcaMerge_inv_in (B M : csr V) inner row bb be mb me (I : list (nat * V) -> S -> Prop)
    (onMatch : nat -> nat -> S -> res S) :
  wf B -> wf M -> inner < rows B -> row < rows M ->
  rowptr B !! inner = Some bb -> rowptr B !! (inner + 1) = Some be ->
  rowptr M !! row = Some mb -> rowptr M !! (row + 1) = Some me ->
  StronglySorted lt (row_cols B inner) -> StronglySorted lt (row_cols M row) ->
  (forall done c b s, c ∉ row_cols M row -> I done s -> I (done ++ [(c, b)]) s) ->
  (forall done q c b loc s, row_cols M row !! q = Some c ->
     colids B !! loc = Some c -> values B !! loc = Some b -> c ∈ row_cols B inner ->
     I done s -> exists s', onMatch (mb + q) loc s = Ok s' /\ I (done ++ [(c, b)]) s') ->
  forall fuel i p key b s,
  row_entries B inner !! i = Some (key, b) ->
  p < me - mb ->
  (forall q c, q < p -> row_cols M row !! q = Some c -> c < key) ->
  (be - (bb + i)) + (me - (mb + p)) <= fuel ->
  I (take i (row_entries B inner)) s ->
  exists s', mcaMerge fuel B M be me onMatch (bb + i) key (mb + p) s = Ok s' /\ I (row_entries B inner) s'.
Proof.
  intros HB HM Hin Hrow Hbb Hbe Hmb Hme HsB HsM Hskip Hmatch.
  pose proof (row_entries_length B inner bb be HB Hin Hbb Hbe) as HlB.
  assert (me <= nnz M) as Hmn by (eapply wf_le_nnz; eauto; lia).
  assert (bb <= be) as Hbbe by (eapply (wf_mono B HB); eauto).
  induction fuel as [|fuel IH]; intros i p key b s Hi Hp Hlow Hfuel HI.
  { apply lookup_lt_Some in Hi. lia. }
  destruct (row_entries_lookup B inner bb be i key b HB Hin Hbb Hbe Hi) as (Hilt & Hck & Hcv).
  destruct (row_entries_lookup_ex M row mb me p HM Hrow Hmb Hme Hp) as (m & mv & Hm & Hmc & _ & _).
  assert (row_cols M row !! p = Some m) as Hmp by (apply row_cols_lookup; eauto).
  assert (row_cols B inner !! i = Some key) as Hki by (apply row_cols_lookup; eauto).
  assert (forall q c, p < q -> row_cols M row !! q = Some c -> m < c) as Hhigh.
  { intros q c Hq Hc. eapply SSorted_lookup_lt; [exact HsM|exact Hmp|exact Hc|exact Hq]. }
  (* when B's row ends *)
  assert (Hend : forall s', bb + i + 1 >= be -> I (take i (row_entries B inner) ++ [(key, b)]) s' ->
            I (row_entries B inner) s').
  { intros s' Hge HI'. rewrite <- (take_S_r _ _ _ Hi) in HI'. rewrite take_ge in HI' by lia. exact HI'. }
  (* when the mask ends: the rest of B's row is outside the mask *)
  assert (Hrest : forall i' s', (forall q c, row_cols M row !! q = Some c -> forall k, i' <= k ->
               forall c', row_cols B inner !! k = Some c' -> c < c') ->
               i' <= be - bb -> I (take i' (row_entries B inner)) s' -> I (row_entries B inner) s').
  { intros i' s' Hout. remember (be - bb - i') as d eqn:Hd. revert i' Hout Hd.
    induction d as [|d IHd]; intros i' Hout Hd Hle HI'.
    - rewrite take_ge in HI' by lia. exact HI'.
    - destruct (row_entries_lookup_ex B inner bb be i' HB Hin Hbb Hbe) as (c & v & Hc & _ & _ & _); [lia|].
      apply (IHd (Datatypes.S i')); [|lia|lia|].
      + intros q c0 Hq k Hk c' Hc'. apply (Hout q c0 Hq k); [lia|exact Hc'].
      + rewrite (take_S_r _ _ _ Hc). apply Hskip; [|exact HI'].
        intros Helem. apply elem_of_list_lookup in Helem as [q Hq].
        specialize (Hout q c Hq i' (le_n _) c). rewrite row_cols_lookup in Hout.
        assert (c < c) by (apply Hout; eauto). lia. }
  cbn [mcaMerge]. rewrite (get_Some _ _ _ Hmc). rewrite bind_Ok.
  destruct (Nat.ltb_spec key m) as [Hlt|Hge].
  - (* key < mask: skip B entry *)
    assert (key ∉ row_cols M row) as Hnin.
    { intros Helem. apply elem_of_list_lookup in Helem as [q Hq].
      destruct (lt_eq_lt_dec q p) as [[Hqp| ->]|Hqp].
      - specialize (Hlow q key Hqp Hq). lia.
      - rewrite Hmp in Hq. inversion Hq. lia.
      - specialize (Hhigh q key Hqp Hq). lia. }
    pose proof (Hskip _ key b s Hnin HI) as HI'.
    destruct (Nat.ltb_spec (bb + i + 1) be) as [Hl|Hl].
    + destruct (row_entries_lookup_ex B inner bb be (i + 1) HB Hin Hbb Hbe) as (c & v & Hc & Hcc & _ & _); [lia|].
      rewrite Nat.add_assoc in Hcc. rewrite (get_Some _ _ _ Hcc). rewrite bind_Ok.
      replace (bb + i + 1) with (bb + (i + 1)) by lia.
      apply (IH (i + 1) p c v s); auto.
      * intros q c0 Hq Hc0. specialize (Hlow q c0 Hq Hc0).
        assert (key < c); [|lia]. eapply (SSorted_lookup_lt (row_cols B inner) i (i+1)); eauto; [|lia].
        apply row_cols_lookup; eauto.
      * lia.
      * rewrite Nat.add_1_r, (take_S_r _ _ _ Hi). exact HI'.
    + exists s. split; [reflexivity|]. apply Hend; [lia|exact HI'].
  - destruct (Nat.ltb_spec m key) as [Hlt|Hge'].
    + (* mask < key: advance the mask *)
      destruct (Nat.eqb_spec (mb + p + 1) me) as [He|He].
      * exists s. split; [reflexivity|]. apply (Hrest i s); [|lia|exact HI].
        intros q c Hq k Hk c' Hc'.
        assert (key <= c').
        { destruct (decide (i = k)) as [->|Hne]; [rewrite Hki in Hc'; inversion Hc'; lia|].
          assert (key < c'); [|lia]. eapply SSorted_lookup_lt; [exact HsB|exact Hki|exact Hc'|lia]. }
        assert (q <= p) as Hqp.
        { apply row_cols_index with (b := mb) (e := me) in Hq; auto. lia. }
        destruct (decide (q = p)) as [->|Hne].
        -- rewrite Hmp in Hq. inversion Hq. lia.
        -- specialize (Hlow q c ltac:(lia) Hq). lia.
      * replace (mb + p + 1) with (mb + (p + 1)) in * by lia.
        apply (IH i (p + 1) key b s); auto; [lia| |lia].
        intros q c Hq Hc. destruct (decide (q = p)) as [->|Hne].
        -- rewrite Hmp in Hc. inversion Hc. lia.
        -- apply (Hlow q c); [lia|exact Hc].
    + (* match *)
      assert (m = key) as -> by lia.
      destruct (Hmatch (take i (row_entries B inner)) p key b (bb + i) s Hmp Hck Hcv (elem_of_list_lookup_2 _ _ _ Hki) HI) as (s' & Hs & HI').
      rewrite Hs. rewrite bind_Ok.
      destruct (Nat.ltb_spec (bb + i + 1) be) as [Hl|Hl].
      * destruct (row_entries_lookup_ex B inner bb be (i + 1) HB Hin Hbb Hbe) as (c & v & Hc & Hcc & _ & _); [lia|].
        rewrite Nat.add_assoc in Hcc. rewrite (get_Some _ _ _ Hcc). rewrite bind_Ok.
        rewrite <- (take_S_r _ _ _ Hi) in HI'.
        assert (forall k c', i + 1 <= k -> row_cols B inner !! k = Some c' -> key < c') as Hk.
        { intros k c' Hk Hc'. eapply SSorted_lookup_lt; [exact HsB|exact Hki|exact Hc'|lia]. }
        destruct (Nat.eqb_spec (mb + p + 1) me) as [He|He].
        -- exists s'. split; [reflexivity|]. apply (Hrest (Datatypes.S i) s'); [|lia|exact HI'].
           intros q c0 Hq k Hk0 c' Hc'. specialize (Hk k c' ltac:(lia) Hc').
           assert (q <= p) as Hqp.
           { apply row_cols_index with (b := mb) (e := me) in Hq; auto. lia. }
           destruct (decide (q = p)) as [->|Hne].
           ++ rewrite Hmp in Hq. inversion Hq. lia.
           ++ specialize (Hlow q c0 ltac:(lia) Hq). lia.
        -- replace (bb + i + 1) with (bb + (i + 1)) in * by lia.
           replace (mb + p + 1) with (mb + (p + 1)) in * by lia.
           apply (IH (i + 1) (p + 1) c v s'); auto; [lia| |lia|].
           ++ intros q c0 Hq Hc0. assert (key < c) by (apply (Hk (i + 1)); [lia|apply row_cols_lookup; eauto]).
              destruct (decide (q = p)) as [->|Hne].
              ** rewrite Hmp in Hc0. inversion Hc0. lia.
              ** specialize (Hlow q c0 ltac:(lia) Hc0). lia.
           ++ rewrite Nat.add_1_r. exact HI'.
      * exists s'. split; [reflexivity|]. apply Hend; [lia|exact HI'].
Qed.

Lemma mcaMerge_inv (B M : csr V) inner row bb be mb me (I : list (nat * V) -> S -> Prop)
    (onMatch : nat -> nat -> S -> res S) :
  wf B -> wf M -> inner < rows B -> row < rows M ->
  rowptr B !! inner = Some bb -> rowptr B !! (inner + 1) = Some be ->
  rowptr M !! row = Some mb -> rowptr M !! (row + 1) = Some me ->
  StronglySorted lt (row_cols B inner) -> StronglySorted lt (row_cols M row) ->
  (forall done c b s, c ∉ row_cols M row -> I done s -> I (done ++ [(c, b)]) s) ->
  (forall done q c b loc s, row_cols M row !! q = Some c ->
     colids B !! loc = Some c -> values B !! loc = Some b ->
     I done s -> exists s', onMatch (mb + q) loc s = Ok s' /\ I (done ++ [(c, b)]) s') ->
  forall fuel i p key b s,
  row_entries B inner !! i = Some (key, b) ->
  p < me - mb ->
  (forall q c, q < p -> row_cols M row !! q = Some c -> c < key) ->
  (be - (bb + i)) + (me - (mb + p)) <= fuel ->
  I (take i (row_entries B inner)) s ->
  exists s', mcaMerge fuel B M be me onMatch (bb + i) key (mb + p) s = Ok s' /\ I (row_entries B inner) s'.
Proof.
  intros HB HM Hin Hrow Hbb Hbe Hmb Hme HsB HsM Hskip Hmatch.
  apply (mcaMerge_inv_in B M inner row bb be mb me); auto. 
Qed.

(** Invariant rule for the whole double loop. *)
Lemma mcaLoop_inv (A B M : csr V) row mb me (I : list (nat * V * V) -> S -> Prop)
    (onMatch : nat -> nat -> nat -> S -> res S) s0 :
  compatible A B M -> row < rows A ->
  rowptr M !! row = Some mb -> rowptr M !! (row + 1) = Some me -> mb < me ->
  sorted_rows B -> StronglySorted lt (row_cols M row) ->
  (forall done c a b s, c ∉ row_cols M row -> I done s -> I (done ++ [(c, a, b)]) s) ->
  (forall done q c a b j loc s, row_cols M row !! q = Some c ->
     values A !! j = Some a -> colids B !! loc = Some c -> values B !! loc = Some b ->
     I done s -> exists s', onMatch j (mb + q) loc s = Ok s' /\ I (done ++ [(c, a, b)]) s') ->
  I [] s0 ->
  exists s', mcaLoop A B M row mb me onMatch s0 = Ok s' /\ I (row_prods A B row) s'.
Proof.
  intros [HA HB HM HAB HMA HMB] Hrow Hmb Hme Hne HsB HsM Hskip Hmatch H0.
  unfold mcaLoop.
  destruct (row_bounds_wf A row HA Hrow) as (ab & ae & Hab & Hae & _ & _ & ->). rewrite bind_Ok.
  rewrite <- rp_row.
  apply (row_loop_inv A row ab ae (fun done s => I (rp B done) s)); auto.
  intros done j k v rest s Hl Hj Hk Hv Hkc HI.
  rewrite (get_Some _ _ _ Hk). rewrite bind_Ok.
  assert (k < rows B) as HkB by lia.
  destruct (row_bounds_wf B k HB HkB) as (bb & be & Hbb & Hbe & Hbbe & Hben & ->). rewrite bind_Ok.
  rewrite rp_snoc.
  destruct (Nat.eqb_spec bb be) as [He|He].
  - exists s. split; [reflexivity|].
    pose proof (row_entries_length B k bb be HB HkB Hbb Hbe) as Hlen.
    destruct (row_entries B k); [|simpl in Hlen; lia]. simpl. rewrite app_nil_r. exact HI.
  - destruct (row_entries_lookup_ex B k bb be 0 HB HkB Hbb Hbe) as (c & b & Hc & Hcc & _ & _); [lia|].
    rewrite Nat.add_0_r in Hcc. rewrite (get_Some _ _ _ Hcc). rewrite bind_Ok.
    assert (me <= nnz M) as Hmn by (eapply wf_le_nnz; eauto; lia).
    pose proof (mcaMerge_inv B M k row bb be mb me (fun d s => I (rp B done ++ prods_of v d) s) (onMatch j)
      HB HM HkB ltac:(lia) Hbb Hbe Hmb Hme (HsB k HkB) HsM) as Hmerge.
    set (fuel := be - bb + length (colids M) + 1).
    assert (exists s', mcaMerge fuel B M be me (onMatch j) (bb + 0) c (mb + 0) s = Ok s' /\
              I (rp B done ++ prods_of v (row_entries B k)) s') as Hm.
    { eapply Hmerge; eauto.
      + intros d c' b' s' Hn HI'. unfold prods_of. rewrite fmap_app, app_assoc. apply Hskip; assumption.
      + intros d q c' b' loc s' Hq Hc' Hb' HI'. unfold prods_of. rewrite fmap_app, app_assoc.
        apply (Hmatch _ q c' v b' j loc s'); assumption.
      + lia.
      + intros q c' Hq. lia.
      + unfold fuel. rewrite (wf_colids M HM). lia.
      + simpl. rewrite app_nil_r. exact HI. }
    rewrite !Nat.add_0_r in Hm. exact Hm.
Qed.
End Merge.

Section McaRowProofs.
Context {V : Type} (mul add : V -> V -> V).
Notation colval := (colval mul add).
Notation pcols := (fmap (fun p : nat * V * V => fst (fst p))).
Notation mrow := (mrow mul add).

Definition mcell (mask : list nat) ps (p : nat) : sbyte * option V :=
  match mask !! p with
  | Some c => match colval ps c with None => (FF, None) | Some v => (B1, Some v) end
  | None => (FF, None)
  end.

Record mrep (n : nat) (mask : list nat) ps (acc : mca V) : Prop := mkMrep {
  mr_len : length acc = n;
  mr_cell : forall p, p < n -> acc !! p = Some (mcell mask ps p) }.

Lemma mrep_clean n mask : mrep n mask [] (mca_clean n).
Proof.
  split; [apply repeat_length|]. intros p Hp. unfold mca_clean. rewrite repeat_lookup by exact Hp.
  unfold mcell. destruct (mask !! p); reflexivity.
Qed.

Lemma mcell_skip mask ps c a b p : c ∉ mask -> mcell mask (ps ++ [(c, a, b)]) p = mcell mask ps p.
Proof.
  intros Hn. unfold mcell. destruct (mask !! p) as [d|] eqn:Hd; [|reflexivity].
  rewrite colval_snoc, decide_False; [reflexivity|]. intros ->. apply Hn.
  eapply elem_of_list_lookup_2; eauto.
Qed.

Lemma mca_get_Ok (acc : mca V) i e : acc !! i = Some e -> mca_get acc i = Ok e.
Proof.
  intros H. unfold mca_get. rewrite assert_true.
  - rewrite bind_Ok. apply get_Some, H.
  - apply Nat.ltb_lt. eapply lookup_lt_Some; eauto.
Qed.

Lemma mca_set_Ok (acc : mca V) i e : i < length acc -> mca_set acc i e = Ok (<[i:=e]> acc).
Proof.
  intros H. unfold mca_set. rewrite assert_true by (apply Nat.ltb_lt; exact H).
  rewrite bind_Ok. apply set_Ok, H.
Qed.

Lemma mcaMatch_mrep (A B : csr V) n mask ps acc mb j q loc c a b :
  NoDup mask -> mrep n mask ps acc -> q < n -> mask !! q = Some c ->
  values A !! j = Some a -> values B !! loc = Some b ->
  exists acc', mcaMatch mul add A B mb j (mb + q) loc acc = Ok acc' /\ mrep n mask (ps ++ [(c, a, b)]) acc'.
Proof.
  intros Hnd [Hl Hc] Hq Hqc Ha Hb. unfold mcaMatch.
  replace (mb + q - mb) with q by lia.
  rewrite (get_Some _ _ _ Ha). rewrite bind_Ok. rewrite (get_Some _ _ _ Hb). rewrite bind_Ok.
  rewrite (mca_get_Ok _ _ _ (Hc q Hq)). rewrite bind_Ok.
  assert (Hother : forall e, e = mcell mask (ps ++ [(c, a, b)]) q ->
            mrep n mask (ps ++ [(c, a, b)]) (<[q:=e]> acc)).
  { intros e He. split; [rewrite insert_length; exact Hl|]. intros p Hp.
    destruct (decide (q = p)) as [<-|Hne].
    - rewrite list_lookup_insert by lia. congruence.
    - rewrite list_lookup_insert_ne by exact Hne. rewrite (Hc p Hp). f_equal. unfold mcell.
      destruct (mask !! p) as [d|] eqn:Hd; [|reflexivity].
      rewrite colval_snoc, decide_False; [reflexivity|]. intros ->. apply Hne.
      eapply NoDup_lookup; eauto. }
  unfold mcell. rewrite Hqc. destruct (colval ps c) as [v|] eqn:Hcv; simpl.
  - rewrite mca_set_Ok by lia. eexists. split; [reflexivity|]. apply Hother. unfold mcell. rewrite Hqc.
    rewrite colval_snoc, decide_True by reflexivity. rewrite Hcv. reflexivity.
  - rewrite mca_set_Ok by lia. eexists. split; [reflexivity|]. apply Hother. unfold mcell. rewrite Hqc.
    rewrite colval_snoc, decide_True by reflexivity. rewrite Hcv. reflexivity.
Qed.

Lemma mcaGather_correct (M : csr V) row mb me n ps acc dn cap :
  wf M -> row < rows M -> rowptr M !! row = Some mb -> rowptr M !! (row + 1) = Some me ->
  me - mb <= n -> mrep n (row_cols M row) ps acc ->
  length dn + length (mrow ps (row_cols M row)) <= cap ->
  mcaGather M row (me - mb) acc (mkOut dn cap) = Ok (mkOut (dn ++ mrow ps (row_cols M row)) cap).
Proof.
  intros HM Hrow Hmb Hme Hn [Hl Hc] Hcap. unfold mcaGather.
  pose proof (row_cols_length M row) as Hlen.
  rewrite (row_entries_length M row mb me HM Hrow Hmb Hme) in Hlen.
  assert (Hprefix : forall i, length (mrow ps (take i (row_cols M row))) <= length (mrow ps (row_cols M row))).
  { intros i. rewrite <- (take_drop i (row_cols M row)) at 2. unfold ComplProofs.mrow.
    rewrite omap_app, app_length. lia. }
  destruct (for_inv (fun i o => o = mkOut (dn ++ mrow ps (take i (row_cols M row))) cap)
    (fun i o => e <- mca_get acc i ;;
      if bool_decide (fst e = M_INITIALIZED) then
        b <- get (rowptr M) row ;;
        c <- get (colids M) (b + i) ;;
        match snd e with Some v => emit o c v | None => Err Uninit end
      else Ok o) 0 (me - mb) (mkOut dn cap)) as (o' & Hf & Ho).
  - lia.
  - simpl. rewrite app_nil_r. reflexivity.
  - intros i o Hi ->. rewrite (mca_get_Ok _ _ _ (Hc i ltac:(lia))). rewrite bind_Ok.
    destruct (lookup_lt_is_Some_2 (row_cols M row) i) as [c Hci]; [lia|].
    pose proof Hci as Hci'. apply row_cols_index with (b := mb) (e := me) in Hci' as [_ Hcc]; auto.
    pose proof (Hprefix (i + 1)) as Hp. rewrite Nat.add_1_r in Hp |- *. rewrite (take_S_r _ _ _ Hci) in Hp |- *.
    assert (mrow ps (take i (row_cols M row) ++ [c]) = mrow ps (take i (row_cols M row)) ++ mrow ps [c]) as Happ.
    { unfold ComplProofs.mrow. apply omap_app. }
    rewrite Happ in Hp |- *. rewrite mrow_cons in Hp |- *.
    unfold mcell. rewrite Hci. destruct (colval ps c) as [v|]; simpl.
    + rewrite (get_Some _ _ _ Hmb). rewrite bind_Ok. rewrite (get_Some _ _ _ Hcc). rewrite bind_Ok.
      rewrite app_length in Hp. simpl in Hp.
      rewrite emit_Ok by (simpl; rewrite app_length; lia). simpl. eexists. split; [reflexivity|].
      rewrite app_assoc. reflexivity.
    + eexists. split; [reflexivity|]. unfold ComplProofs.mrow at 3. simpl. rewrite app_nil_r. reflexivity.
  - rewrite Hf, Ho. rewrite take_ge by lia. reflexivity.
Qed.

Lemma mca_clearAll_clean n mask ps acc k : mrep n mask ps acc -> length mask = k -> k <= n ->
  mca_clearAll acc k = Ok (mca_clean n).
Proof.
  intros [Hl Hc] Hk Hle. unfold mca_clearAll. destruct (Nat.leb_spec k (length acc)); [|lia].
  f_equal. unfold mca_clean. replace n with (k + (n - k)) by lia. rewrite repeat_app. f_equal.
  apply list_eq_repeat; [rewrite drop_length; lia|]. intros i Hi. rewrite lookup_drop.
  rewrite Hc by lia. unfold mcell. rewrite lookup_ge_None_2 by lia. reflexivity.
Qed.

Theorem mcaNumericRow_correct (A B M : csr V) row n dn cap :
  compatible A B M -> row < rows A -> sorted_rows B -> StronglySorted lt (row_cols M row) ->
  row_cols M row <> [] -> length (row_cols M row) <= n ->
  length dn + length (spec_row mul add A B M row) <= cap ->
  mcaNumericRow mul add A B M row (mca_clean n) (mkOut dn cap) =
    Ok (mca_clean n, mkOut (dn ++ spec_row mul add A B M row) cap).
Proof.
  intros Hco Hrow HsB HsM Hne Hn Hcap. pose proof Hco as [HA HB HM HAB HMA HMB].
  assert (row < rows M) as HrM by lia.
  destruct (row_bounds_wf M row HM HrM) as (mb & me & Hmb & Hme & Hle & _ & Hrb).
  pose proof (row_cols_length M row) as Hlen.
  rewrite (row_entries_length M row mb me HM HrM Hmb Hme) in Hlen.
  assert (mb < me) as Hlt by (destruct (row_cols M row); [congruence|simpl in Hlen; lia]).
  unfold mcaNumericRow. rewrite Hrb. rewrite bind_Ok.
  destruct (mcaLoop_inv A B M row mb me (fun ps acc => mrep n (row_cols M row) ps acc)
    (fun j maskIdx loc acc => mcaMatch mul add A B mb j maskIdx loc acc) (mca_clean n)) as (acc' & Hf & Hp); auto.
  - intros ps c a b acc Hnin [H1 H2]. split; [exact H1|]. intros p Hp. rewrite mcell_skip by exact Hnin. auto.
  - intros ps q c a b j loc acc Hq Ha _ Hb HI. apply mcaMatch_mrep; auto.
    + apply SSorted_NoDup, HsM.
    + apply lookup_lt_Some in Hq. lia.
  - apply mrep_clean.
  - rewrite Hf. rewrite bind_Ok. rewrite <- mrow_spec in Hcap |- *.
    rewrite (mcaGather_correct M row mb me n (row_prods A B row)); auto; [|lia]. rewrite bind_Ok.
    rewrite (mca_clearAll_clean n (row_cols M row) (row_prods A B row)); auto; lia.
Qed.

(** *** Symbolic *)
Definition scell (mask : list nat) (t : list nat) (p : nat) : sbyte * option V :=
  match mask !! p with
  | Some c => if decide (c ∈ t) then (B0, None) else (FF, None)
  | None => (FF, None)
  end.

Record msrep (n : nat) (mask t : list nat) (acc : mca V) : Prop := mkMsrep {
  ms_len : length acc = n;
  ms_cell : forall p, p < n -> acc !! p = Some (scell mask t p) }.

Theorem mcaSymbolicRow_correct (A B M : csr V) row n :
  compatible A B M -> row < rows A -> sorted_rows B -> StronglySorted lt (row_cols M row) ->
  row_cols M row <> [] -> length (row_cols M row) <= n ->
  mcaSymbolicRow A B M row (mca_clean n) = Ok (mca_clean n, length (spec_row mul add A B M row)).
Proof.
  intros Hco Hrow HsB HsM Hne Hn. pose proof Hco as [HA HB HM HAB HMA HMB].
  assert (row < rows M) as HrM by lia.
  destruct (row_bounds_wf M row HM HrM) as (mb & me & Hmb & Hme & Hle & _ & Hrb).
  pose proof (row_cols_length M row) as Hlen.
  rewrite (row_entries_length M row mb me HM HrM Hmb Hme) in Hlen.
  assert (mb < me) as Hlt by (destruct (row_cols M row); [congruence|simpl in Hlen; lia]).
  pose proof (SSorted_NoDup _ HsM) as Hnd.
  unfold mcaSymbolicRow. rewrite Hrb. rewrite bind_Ok.
  destruct (mcaLoop_inv A B M row mb me
    (fun ps (an : mca V * nat) => msrep n (row_cols M row) (pcols ps) (fst an) /\ snd an = cnt (row_cols M row) (pcols ps))
    (fun j maskIdx loc '(acc, n) =>
      let idx := maskIdx - mb in
      e <- mca_get acc idx ;;
      if bool_decide (fst e = M_EMPTY)
      then acc' <- mca_set acc idx (M_ALLOWED, snd e) ;; Ok (acc', n + 1)
      else Ok (acc, n)) (mca_clean n, 0)) as ([acc' k] & Hf & Hp & Hk); auto.
  - intros ps c a b [acc k] Hnin [[H1 H2] Hk]. cbn [fst snd] in *. rewrite fmap_app. simpl. split.
    + split; [exact H1|]. intros p Hp. rewrite H2 by exact Hp. f_equal. unfold scell.
      destruct (row_cols M row !! p) as [d|] eqn:Hd; [|reflexivity].
      rewrite (decide_ext (d ∈ pcols ps ++ [c]) (d ∈ pcols ps)); [reflexivity|].
      rewrite elem_of_app, elem_of_list_singleton. split; [|tauto]. intros [H| ->]; [exact H|].
      exfalso. apply Hnin. eapply elem_of_list_lookup_2; eauto.
    + rewrite cnt_snoc by exact Hnd. rewrite decide_False by exact Hnin. exact Hk.
  - intros ps q c a b j loc [acc k] Hq Ha _ Hb [[H1 H2] Hk]. cbn [fst snd] in *.
    assert (q < n) as Hqn by (apply lookup_lt_Some in Hq; lia).
    replace (mb + q - mb) with q by lia. cbv zeta.
    rewrite (mca_get_Ok _ _ _ (H2 q Hqn)). rewrite bind_Ok.
    assert (c ∈ row_cols M row) as Hcm by (eapply elem_of_list_lookup_2; eauto).
    assert (Hq' : scell (row_cols M row) (pcols ps) q = if decide (c ∈ pcols ps) then (B0, None) else (FF, None)).
    { unfold scell. rewrite Hq. reflexivity. }
    rewrite Hq'. rewrite fmap_app. simpl. rewrite cnt_snoc by exact Hnd.
    rewrite (decide_True (P := c ∈ row_cols M row)) by exact Hcm.
    assert (Hcells : forall p, p < n -> q <> p ->
              scell (row_cols M row) (pcols ps ++ [c]) p = scell (row_cols M row) (pcols ps) p).
    { intros p Hp Hne'. unfold scell. destruct (row_cols M row !! p) as [d|] eqn:Hd; [|reflexivity].
      rewrite (decide_ext (d ∈ pcols ps ++ [c]) (d ∈ pcols ps)); [reflexivity|].
      rewrite elem_of_app, elem_of_list_singleton. split; [|tauto]. intros [H| ->]; [exact H|].
      exfalso. apply Hne'. eapply NoDup_lookup; eauto. }
    assert (Hqs : scell (row_cols M row) (pcols ps ++ [c]) q = (B0, None)).
    { unfold scell. rewrite Hq. rewrite decide_True; [reflexivity|]. apply elem_of_app. right. left. }
    destruct (decide (c ∈ pcols ps)) as [Ht|Ht]; simpl.
    + eexists. split; [reflexivity|]. cbn [fst snd]. split; [|exact Hk].
      split; [exact H1|]. intros p Hp. destruct (decide (q = p)) as [<-|Hne'].
      * rewrite Hqs, H2 by exact Hp. rewrite Hq'. reflexivity.
      * rewrite Hcells by assumption. apply H2, Hp.
    + rewrite mca_set_Ok by lia. simpl. eexists. split; [reflexivity|]. cbn [fst snd]. split; [|lia].
      split; [rewrite insert_length; exact H1|]. intros p Hp. destruct (decide (q = p)) as [<-|Hne'].
      * rewrite list_lookup_insert by lia. rewrite Hqs. reflexivity.
      * rewrite list_lookup_insert_ne by exact Hne'. rewrite Hcells by assumption. apply H2, Hp.
  - cbn [fst snd]. split.
    + split; [apply repeat_length|]. intros p Hp. unfold mca_clean. rewrite repeat_lookup by exact Hp.
      unfold scell. destruct (row_cols M row !! p); [|reflexivity]. rewrite decide_False; [reflexivity|].
      intros H; inversion H.
    + unfold cnt. clear. induction (row_cols M row) as [|c l IH]; [reflexivity|].
      rewrite filter_cons. rewrite decide_False; [exact IH|]. intros H. inversion H.
  - cbv zeta in Hf |- *. rewrite Hf. rewrite bind_Ok. cbn [fst snd] in *. destruct Hp as [H1 H2].
    assert (mca_clearAll acc' (me - mb) = Ok (mca_clean n)) as ->.
    { unfold mca_clearAll. destruct (Nat.leb_spec (me - mb) (length acc')); [|lia].
      f_equal. unfold mca_clean. replace n with ((me - mb) + (n - (me - mb))) by lia. rewrite repeat_app. f_equal.
      apply list_eq_repeat; [rewrite drop_length; lia|]. intros i Hi. rewrite lookup_drop.
      rewrite H2 by lia. unfold scell. rewrite lookup_ge_None_2 by lia. reflexivity. }
    simpl. rewrite Hk, spec_row_length, row_prods_cols. reflexivity.
Qed.
End McaRowProofs.
