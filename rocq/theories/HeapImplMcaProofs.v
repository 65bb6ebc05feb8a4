(** The row algorithms MCA_v1, MCA_v2, MCA_v3 of heap_mult_generic.h. *)
From stdpp Require Import sorting.
From Verif Require Import KernelBase BaseProofs ComplProofs MsaProofs McaModel McaProofs HeapModel HeapPrimProofs HeapProofs
  HeapRowProofs HeapStatements HeapImplModel HeapImplRowProofs.
From Verif Require Import Base Spec.

Section Mca2.
Context {V S : Type}.

Lemma mca2_merge fuel (B M : csr V) be me (on : nat -> nat -> S -> res S) : forall loc key p s s', p < me ->
  mcaMerge fuel B M be me on loc key p s = Ok s' -> mca2 (fuel + 1) B M be me on loc key p s = Ok s'.
Proof.
  induction fuel as [|fuel IH]; intros loc key p s s' Hp; [discriminate|].
  cbn [mcaMerge plus mca2]. destruct (Nat.ltb_spec p me) as [_|]; [|lia].
  destruct (get (colids M) p) as [m|]; [|discriminate]. cbn [bind].
  assert (forall loc key s1, (if p + 1 =? me then Ok s1 else mcaMerge fuel B M be me on loc key (p + 1) s1) = Ok s' ->
    mca2 (fuel + 1) B M be me on loc key (p + 1) s1 = Ok s') as Hnext.
  { intros loc' key' s1. destruct (Nat.eqb_spec (p + 1) me) as [He|He]; [|apply IH; lia].
    intros H. destruct (fuel + 1) as [|f] eqn:Ef; [lia|]. cbn [mca2]. destruct (Nat.ltb_spec (p + 1) me); [lia|]. exact H. }
  destruct (Nat.ltb_spec key m) as [Hlt|Hge].
  - destruct (loc + 1 <? be); [|auto]. destruct (get (colids B) (loc + 1)) as [key'|]; [|discriminate]. cbn [bind]. apply IH, Hp.
  - destruct (Nat.ltb_spec m key) as [Hlt|Hge']; destruct (Nat.eqb_spec key m); try lia; [apply Hnext|].
    destruct (on p loc s) as [s1|]; [|discriminate]. cbn [bind].
    destruct (loc + 1 <? be); [|auto]. destruct (get (colids B) (loc + 1)) as [key'|]; [|discriminate]. cbn [bind]. apply Hnext.
Qed.

Definition mcaStepV (v : mcaVersion) (A B M : csr V) (mb me j : nat) (on : nat -> nat -> S -> res S) (s : S) : res S :=
  match v with MV1 => mcaStep1 A B M mb me j on s | MV2 => mcaStep2 A B M mb me j on s | MV3 => mcaStep3 A B M mb me j on s end.

Variables (v : mcaVersion) (A B M : csr V) (row mb me : nat).
Hypotheses (Hco : compatible A B M) (Hrow : row < rows A) (HsB : sorted_rows B) (HsM : StronglySorted lt (row_cols M row)).
Hypotheses (Hmb : rowptr M !! row = Some mb) (Hme : rowptr M !! (row + 1) = Some me).
Hypothesis Hkey : v <> MV3 -> forall k a bb, (k, a) ∈ row_entries A row -> rowptr B !! k = Some bb ->
  exists key, colids A !! bb = Some key /\ (row_cols B k = [] \/ colids B !! bb = Some key).

Lemma mcaStepV_inv (I : list (nat * V * V) -> S -> Prop) (on : nat -> nat -> nat -> S -> res S) done j k a s : mb < me ->
  (forall done c a b s, c ∉ row_cols M row -> I done s -> I (done ++ [(c, a, b)]) s) ->
  (forall done q c a b j loc s, row_cols M row !! q = Some c -> values A !! j = Some a -> colids B !! loc = Some c ->
     values B !! loc = Some b -> c ∈ touched_cols A B row ->
     I done s -> exists s', on j (mb + q) loc s = Ok s' /\ I (done ++ [(c, a, b)]) s') ->
  (k, a) ∈ row_entries A row -> colids A !! j = Some k -> values A !! j = Some a ->
  I done s -> exists s', mcaStepV v A B M mb me j (on j) s = Ok s' /\ I (done ++ prods_of a (row_entries B k)) s'.
Proof.
  intros Hne Hskip Hmatch Hel Hk Ha HI. destruct Hco as [HA HB HM HAB HMA HMB].
  assert (k < rows B) as HkB by (rewrite <- HAB; eapply row_entries_range; eauto).
  destruct (row_bounds_wf B k HB HkB) as (bb & be & Hbb & Hbe & Hbbe & Hben & Hrb).
  pose proof (row_entries_length B k bb be HB HkB Hbb Hbe) as Hlen.
  assert (me <= nnz M) as Hmn by (eapply wf_le_nnz; eauto; lia).
  assert (v <> MV3 -> exists key, colids A !! bb = Some key /\ (bb <> be -> colids B !! bb = Some key)) as Hkey'.
  { intros Hv. destruct (Hkey Hv k a bb Hel Hbb) as (key & H1 & H2). exists key. split; [exact H1|]. intros Hnb.
    destruct H2 as [H2|H2]; [|exact H2]. exfalso. apply (f_equal length) in H2. rewrite row_cols_length in H2. simpl in H2. lia. }
  assert (bb = be -> exists s', mcaStepV v A B M mb me j (on j) s = Ok s' /\ I (done ++ prods_of a (row_entries B k)) s') as Hemp.
  { intros He. exists s. split.
    - unfold mcaStepV, mcaStep1, mcaStep2, mcaStep3. rewrite (get_Some _ _ _ Hk), !bind_Ok, Hrb, !bind_Ok.
      rewrite <- He, !Nat.eqb_refl. destruct v; try reflexivity;
        destruct (Hkey' ltac:(discriminate)) as (key & Hka & _); rewrite (get_Some _ _ _ Hka); reflexivity.
    - destruct (row_entries B k); [|simpl in Hlen; lia]. simpl. rewrite app_nil_r. exact HI. }
  destruct (decide (bb = be)) as [He|He]; [auto|]. clear Hemp.
  destruct (row_entries_lookup_ex B k bb be 0 HB HkB Hbb Hbe) as (c & b & Hc & Hcc & _ & _); [lia|].
  rewrite Nat.add_0_r in Hcc.
  set (fuel := be - bb + length (colids M) + 1).
  assert (exists s', mcaMerge fuel B M be me (on j) (bb + 0) c (mb + 0) s = Ok s' /\
              I (done ++ prods_of a (row_entries B k)) s') as (s' & Hm & HI').
  { apply (mcaMerge_inv_in B M k row bb be mb me (fun d s => I (done ++ prods_of a d) s) (on j)) with (b := b); auto; try lia.
    + intros d c' b' s' Hn HI'. unfold prods_of. rewrite fmap_app, app_assoc. apply Hskip; assumption.
    + intros d q c' b' loc s' Hq Hc' Hb' Hin HI'. unfold prods_of. rewrite fmap_app, app_assoc.
      apply (Hmatch _ q c' a b' j loc s'); auto.
      rewrite <- row_prods_cols. apply elem_of_list_fmap. apply elem_of_list_fmap in Hin as ([c1 b1] & Hc1 & Hin). cbn in Hc1. subst c1.
      exists (c', a, b1). split; [reflexivity|]. unfold row_prods. apply elem_of_list_join. eexists.
      split; [|apply elem_of_list_fmap; exists (k, a); split; [reflexivity|exact Hel]].
      cbn. apply elem_of_list_fmap. exists (c', b1). auto.
    + unfold fuel. rewrite (wf_colids M HM). lia.
    + simpl. rewrite app_nil_r. exact HI. }
  rewrite !Nat.add_0_r in Hm. exists s'. split; [|exact HI'].
  unfold mcaStepV, mcaStep1, mcaStep2, mcaStep3. rewrite (get_Some _ _ _ Hk), !bind_Ok, Hrb, !bind_Ok.
  destruct (Nat.eqb_spec bb be) as [|_]; [contradiction|].
  assert (v <> MV3 -> get (colids A) bb = Ok c) as Hget.
  { intros Hv. destruct (Hkey' Hv) as (key & Hka & Hkb). specialize (Hkb He). rewrite Hcc in Hkb. inversion Hkb; subst.
    apply get_Some, Hka. }
  destruct v.
  - rewrite Hget by discriminate. rewrite bind_Ok. exact Hm.
  - rewrite Hget by discriminate. rewrite bind_Ok. apply mca2_merge in Hm; [|lia]. unfold fuel in Hm.
    rewrite <- Hm. f_equal. lia.
  - rewrite (get_Some _ _ _ Hcc), bind_Ok. exact Hm.
Qed.

(** With an empty mask row MCA_v2 does nothing; the others must not have anything to merge. *)
Lemma mcaStepV_empty (on : nat -> nat -> nat -> S -> res S) j k a s : mb = me -> (v <> MV2 -> row_cols B k = []) ->
  (k, a) ∈ row_entries A row -> colids A !! j = Some k -> mcaStepV v A B M mb me j (on j) s = Ok s.
Proof.
  intros Hme' Hemp Hel Hk. destruct Hco as [HA HB HM HAB HMA HMB].
  assert (k < rows B) as HkB by (rewrite <- HAB; eapply row_entries_range; eauto).
  destruct (row_bounds_wf B k HB HkB) as (bb & be & Hbb & Hbe & Hbbe & Hben & Hrb).
  pose proof (row_entries_length B k bb be HB HkB Hbb Hbe) as Hlen.
  assert (v <> MV2 -> bb = be) as Hbe'.
  { intros Hv. specialize (Hemp Hv). apply (f_equal length) in Hemp. rewrite row_cols_length in Hemp. simpl in Hemp. lia. }
  unfold mcaStepV, mcaStep1, mcaStep2, mcaStep3. rewrite (get_Some _ _ _ Hk), !bind_Ok, Hrb, !bind_Ok.
  destruct v.
  - destruct (Hkey ltac:(discriminate) k a bb Hel Hbb) as (key & Hka & _). rewrite (get_Some _ _ _ Hka), bind_Ok.
    rewrite (Hbe' ltac:(discriminate)), Nat.eqb_refl. reflexivity.
  - destruct (Hkey ltac:(discriminate) k a bb Hel Hbb) as (key & Hka & _). rewrite (get_Some _ _ _ Hka), bind_Ok.
    destruct (bb =? be); [reflexivity|]. rewrite Nat.add_comm. cbn [plus mca2]. destruct (Nat.ltb_spec mb me); [lia|reflexivity].
  - rewrite (Hbe' ltac:(discriminate)), Nat.eqb_refl. reflexivity.
Qed.
End Mca2.

Section McaRow.
Context {V : Type} (mul add : V -> V -> V).
Local Notation prod := (nat * V * V)%type.
Notation colval := (colval mul add).
Notation mrow := (mrow mul add).

(** The flags and the value cells after the products [ps] were seen. *)
Record frep (mask : list nat) (base nf : nat) (vals0 : list (option V)) (ps : list prod) (s : list bool * list (option V)) : Prop := mkFrep {
  fr_nf : length (fst s) = nf;
  fr_nv : length (snd s) = length vals0;
  fr_flag : forall p c, mask !! p = Some c -> fst s !! p = Some (match colval ps c with Some _ => true | None => false end);
  fr_val : forall p c v, mask !! p = Some c -> colval ps c = Some v -> snd s !! (base + p) = Some (Some v);
  fr_below : forall q, q < base -> snd s !! q = vals0 !! q }.

Lemma frep_skip mask base nf vals0 ps s c a b : c ∉ mask -> frep mask base nf vals0 ps s -> frep mask base nf vals0 (ps ++ [(c, a, b)]) s.
Proof.
  intros Hn [H1 H2 H3 H4 H5].
  assert (forall p d, mask !! p = Some d -> colval (ps ++ [(c, a, b)]) d = colval ps d) as Hsame.
  { intros p d Hd. rewrite colval_snoc, decide_False; [reflexivity|]. intros ->. apply Hn. eapply elem_of_list_lookup_2; eauto. }
  split; auto.
  - intros p d Hd. rewrite (Hsame p d Hd). auto.
  - intros p d v Hd. rewrite (Hsame p d Hd). eauto.
Qed.

Lemma flagMatch_frep (A B : csr V) mask base nf vals0 ps s mb j q loc c a b :
  NoDup mask -> frep mask base nf vals0 ps s -> mask !! q = Some c -> base + q < length vals0 ->
  values A !! j = Some a -> values B !! loc = Some b ->
  exists s', flagMatch mul add A B base mb j (mb + q) loc s = Ok s' /\ frep mask base nf vals0 (ps ++ [(c, a, b)]) s'.
Proof.
  intros Hnd [H1 H2 H3 H4 H5] Hq Hroom Ha Hb. destruct s as [flags vals]. cbn [fst snd] in *. unfold flagMatch.
  replace (mb + q - mb) with q by lia.
  rewrite (get_Some _ _ _ Ha), bind_Ok, (get_Some _ _ _ Hb), bind_Ok, (get_Some _ _ _ (H3 q c Hq)), bind_Ok.
  assert (forall p d, mask !! p = Some d -> p <> q -> colval (ps ++ [(c, a, b)]) d = colval ps d) as Hsame.
  { intros p d Hd Hpq. rewrite colval_snoc, decide_False; [reflexivity|]. intros ->. apply Hpq. eapply NoDup_lookup; eauto. }
  assert (forall w fl, colval (ps ++ [(c, a, b)]) c = Some w -> fl = <[q := true]> flags ->
    frep mask base nf vals0 (ps ++ [(c, a, b)]) (fl, <[base + q := Some w]> vals)) as Hend.
  { intros w fl Hw ->. split; cbn [fst snd]; rewrite ?insert_length; auto.
    - intros p d Hd. destruct (decide (p = q)) as [->|Hpq].
      + rewrite Hq in Hd. inversion Hd; subst. rewrite Hw. apply list_lookup_insert. eapply lookup_lt_Some, H3, Hq.
      + rewrite list_lookup_insert_ne by auto. rewrite (Hsame p d Hd Hpq). auto.
    - intros p d w' Hd Hw'. destruct (decide (p = q)) as [->|Hpq].
      + rewrite Hq in Hd. inversion Hd; subst. rewrite Hw in Hw'. inversion Hw'; subst. apply list_lookup_insert. lia.
      + rewrite list_lookup_insert_ne by lia. rewrite (Hsame p d Hd Hpq) in Hw'. eauto.
    - intros p Hp. rewrite list_lookup_insert_ne by lia. auto. }
  destruct (colval ps c) as [w|] eqn:Hcv.
  - rewrite (getI_Some _ _ _ (H4 q c w Hq Hcv)), bind_Ok. rewrite set_Ok by lia. rewrite bind_Ok. eexists. split; [reflexivity|].
    apply Hend.
    + rewrite colval_snoc, decide_True, Hcv by reflexivity. reflexivity.
    + symmetry. apply list_insert_id. rewrite (H3 q c Hq), Hcv. reflexivity.
  - rewrite set_Ok by lia. rewrite bind_Ok. rewrite set_Ok by (eapply lookup_lt_Some, H3, Hq). rewrite bind_Ok.
    eexists. split; [reflexivity|]. apply Hend; [|reflexivity].
    rewrite colval_snoc, decide_True, Hcv by reflexivity. reflexivity.
Qed.

Lemma fillFlags_ok flags n : n <= length flags -> fillFlags flags n = Ok (replicate n false ++ drop n flags).
Proof. intros H. unfold fillFlags. destruct (Nat.leb_spec n (length flags)); [reflexivity|lia]. Qed.

Lemma gatherL_ok (M : csr V) row mb me base est ps flags vals L dn cap :
  wf M -> row < rows M -> rowptr M !! row = Some mb -> rowptr M !! (row + 1) = Some me ->
  lrep cap L dn -> base = length dn + 1 -> length dn + est <= cap ->
  (forall p c, row_cols M row !! p = Some c -> is_Some (colval ps c) -> p < est) ->
  frep (row_cols M row) base (length flags) (l_vals L) ps (flags, vals) ->
  exists ids vals', gatherL M mb (me - mb) base flags (l_ids L) vals = Ok (ids, vals', length (mrow ps (row_cols M row))) /\
    lrep cap (mkLbuf ids vals' (l_pos L + length (mrow ps (row_cols M row)))) (dn ++ mrow ps (row_cols M row)).
Proof.
  intros HM Hrow Hmb Hme HL -> Hest Hroom [F1 F2 F3 F4 F5]. cbn [fst snd] in *.
  pose proof (row_cols_length M row) as Hlen. rewrite (row_entries_length M row mb me HM Hrow Hmb Hme) in Hlen.
  set (mask := row_cols M row) in *. set (base := length dn + 1) in *.
  assert (Hsnoc : forall l c, mrow ps (l ++ [c]) = mrow ps l ++ mrow ps [c]) by (intros; apply omap_app).
  destruct (for_inv (fun src '(ids, vals', dst) => dst = length (mrow ps (take src mask)) /\ dst <= src /\ dst <= est /\
      length ids = cap + 1 /\ length vals' = cap + 1 /\
      (forall p c v, (dn ++ mrow ps (take src mask)) !! p = Some (c, v) -> ids !! (p + 1) = Some c /\ vals' !! (p + 1) = Some (Some v)) /\
      (forall q, base + src <= q -> vals' !! q = vals !! q))
    (fun src '(ids, vals, dst) =>
    f <- get flags src ;;
    if (f : bool) then
      c <- get (colids M) (mb + src) ;;
      ids <- set_ ids (base + dst) c ;;
      x <- getI vals (base + src) ;;
      vals <- set_ vals (base + dst) (Some x) ;;
      Ok (ids, vals, dst + 1)
    else Ok (ids, vals, dst)) 0 (me - mb) (l_ids L, vals, 0)) as ([[ids vals'] dst] & Hf & Hdst & _ & Hde & Hi & Hv & Hcell & _).
  - lia.
  - split; [reflexivity|]. split; [lia|]. split; [lia|]. split; [apply HL|]. split; [rewrite F2; apply HL|]. split; [|auto].
    intros p c v Hp. rewrite take_0 in Hp. change (mrow ps []) with (@nil (nat * V)) in Hp. rewrite app_nil_r in Hp.
    destruct (lr_cell _ _ _ HL p c v Hp) as [H1 H2]. split; [exact H1|]. rewrite F5; [exact H2|].
    apply lookup_lt_Some in Hp. unfold base. lia.
  - intros src [[ids vals'] dst] Hsrc (Hd & Hds & Hde & Hi & Hv & Hcell & Habove).
    destruct (lookup_lt_is_Some_2 mask src) as [c Hc]; [lia|].
    pose proof Hc as Hcm. apply row_cols_index with (b := mb) (e := me) in Hcm as [_ Hcm]; auto.
    rewrite (get_Some _ _ _ (F3 src c Hc)), bind_Ok. 
    assert (mrow ps (take (src + 1) mask) = mrow ps (take src mask) ++ mrow ps [c]) as Htk by (rewrite Nat.add_1_r, (take_S_r _ _ _ Hc); apply Hsnoc).
    rewrite mrow_cons in Htk. rewrite Htk.
    destruct (colval ps c) as [w|] eqn:Hcv.
    + assert (src < est) as Hse by (apply (Hroom src c Hc); rewrite Hcv; eauto).
      rewrite (get_Some _ _ _ Hcm), bind_Ok. rewrite set_Ok by (unfold base; lia). rewrite bind_Ok.
      assert (vals' !! (base + src) = Some (Some w)) as Hw by (rewrite Habove by lia; eauto).
      rewrite (getI_Some _ _ _ Hw), bind_Ok. rewrite set_Ok by (unfold base; lia). rewrite bind_Ok.
      eexists. split; [reflexivity|]. change (mrow ps []) with (@nil (nat * V)). rewrite app_length, !insert_length. simpl length.
      split; [lia|]. split; [lia|]. split; [lia|]. split; [exact Hi|]. split; [exact Hv|]. split.
      * intros p c' v' Hp. rewrite app_assoc in Hp. apply lookup_app_Some in Hp as [Hp|[Hge Hp]].
        -- pose proof (lookup_lt_Some _ _ _ Hp) as Hlt. rewrite app_length, <- Hd in Hlt.
           rewrite !list_lookup_insert_ne by (unfold base; lia). auto.
        -- apply list_lookup_singleton_Some in Hp as [Hz Hp]. inversion Hp; subst c' v'. rewrite app_length, <- Hd in Hz, Hge.
           replace (p + 1) with (base + dst) by (unfold base; lia). rewrite !list_lookup_insert by (unfold base; lia). auto.
      * intros q Hq. rewrite list_lookup_insert_ne by lia. apply Habove. lia.
    + eexists. split; [reflexivity|]. change (mrow ps []) with (@nil (nat * V)). rewrite app_nil_r.
      split; [exact Hd|]. split; [lia|]. split; [lia|]. split; [exact Hi|]. split; [exact Hv|]. split; [exact Hcell|].
      intros q Hq. apply Habove. lia.
  - rewrite take_ge in Hdst, Hcell by lia. exists ids, vals'. unfold gatherL. rewrite Hf, Hdst. split; [reflexivity|].
    split; cbn [l_ids l_vals l_pos]; rewrite ?app_length; auto; [rewrite (lr_pos _ _ _ HL); lia|lia].
Qed.

Lemma touched_colval (A B : csr V) row c : is_Some (colval (row_prods A B row) c) -> c ∈ touched_cols A B row.
Proof.
  intros [w Hw]. rewrite <- row_prods_cols. destruct (decide (c ∈ ((fun p : prod => fst (fst p)) <$> row_prods A B row))) as [H|H]; [exact H|].
  apply (colval_None mul add) in H. congruence.
Qed.

Lemma mcaRowG_correct v (A B M : csr V) row est :
  compatible A B M -> row < rows A -> sorted_rows B -> StronglySorted lt (row_cols M row) ->
  (v <> MV3 -> forall k a bb, (k, a) ∈ row_entries A row -> rowptr B !! k = Some bb ->
    exists key, colids A !! bb = Some key /\ (row_cols B k = [] \/ colids B !! bb = Some key)) ->
  (v <> MV2 -> row_cols M row = [] -> touched_cols A B row = []) ->
  (forall p c, row_cols M row !! p = Some c -> c ∈ touched_cols A B row -> p < est) ->
  forall flags dn cap L, length (row_cols M row) <= length flags -> lrep cap L dn -> length dn + est <= cap ->
  exists flags' L', mcaRowG mul add v A B M row flags L = Ok (flags', L', Some (length (spec_row mul add A B M row))) /\
    lrep cap L' (dn ++ spec_row mul add A B M row) /\ length flags' = length flags.
Proof.
  intros Hco Hrow HsB HsM Hkey Hemp Hroom flags dn cap L Hfl HL Hest. pose proof Hco as [HA HB HM HAB HMA HMB].
  assert (row < rows M) as HrM by lia.
  destruct (row_bounds_wf M row HM HrM) as (mb & me & Hmb & Hme & Hle & _ & Hrb).
  pose proof (row_cols_length M row) as Hml. rewrite (row_entries_length M row mb me HM HrM Hmb Hme) in Hml.
  unfold mcaRowG. rewrite Hrb, bind_Ok. rewrite fillFlags_ok by lia. rewrite bind_Ok.
  destruct (row_bounds_wf A row HA Hrow) as (ab & ae & Hab & Hae & _ & _ & ->). rewrite bind_Ok.
  set (base := l_pos L + 1).
  set (fl := replicate (me - mb) false ++ drop (me - mb) flags).
  assert (length fl = length flags) as Hfl'. { unfold fl. rewrite app_length, replicate_length, drop_length. lia. }
  set (mask := row_cols M row) in *.
  assert (frep mask base (length flags) (l_vals L) [] (fl, l_vals L)) as H0.
  { split; cbn [fst snd]; auto.
    - intros p c Hc. rewrite colval_nil. unfold fl. apply lookup_lt_Some in Hc. rewrite lookup_app_l by (rewrite replicate_length; lia).
      apply lookup_replicate_2. lia.
    - intros p c w Hc. rewrite colval_nil. discriminate. }
  assert (exists s, for_ ab ae (fun j s => mcaStepV v A B M mb me j (flagMatch mul add A B base mb j) s) (fl, l_vals L) = Ok s /\
    frep mask base (length flags) (l_vals L) (row_prods A B row) s) as ([fl' vals'] & Hfor & Hrep).
  { rewrite <- rp_row.
    destruct (decide (mb = me)) as [He|He].
    - destruct (row_loop_inv A row ab ae (fun done s => s = (fl, l_vals L))
        (fun j s => mcaStepV v A B M mb me j (flagMatch mul add A B base mb j) s) (fl, l_vals L) HA Hrow Hab Hae eq_refl) as (s & Hf & ->).
      + intros done j k a rest s Hl Hj Hk Ha Hkc ->. eexists. split; [|reflexivity].
        apply (mcaStepV_empty v A B M row mb me Hco Hrow Hkey (flagMatch mul add A B base mb) j k a); auto.
        * intros Hv. assert (mask = []) as Hmn by (apply nil_length_inv; lia). specialize (Hemp Hv Hmn).
          destruct (row_cols B k) as [|c l] eqn:Hc; [reflexivity|]. exfalso.
          assert (c ∈ touched_cols A B row) as Hin; [|rewrite Hemp in Hin; inversion Hin].
          assert (c ∈ row_cols B k) as Hin by (rewrite Hc; left).
          rewrite <- row_prods_cols. apply elem_of_list_fmap. apply elem_of_list_fmap in Hin as ([c1 b1] & Hc1 & Hin). cbn in Hc1. subst c1.
          exists (c, a, b1). split; [reflexivity|]. unfold row_prods. apply elem_of_list_join. eexists.
          split; [|apply elem_of_list_fmap; exists (k, a); split; [reflexivity|rewrite Hl; apply elem_of_app; right; left]].
          cbn. apply elem_of_list_fmap. exists (c, b1). auto.
        * rewrite Hl. apply elem_of_app. right. left.
      + exists (fl, l_vals L). split; [exact Hf|]. assert (mask = []) as Hmn by (apply nil_length_inv; lia).
        destruct H0 as [F1 F2 F3 F4 F5]. split; auto; rewrite Hmn; intros; discriminate.
    - apply (row_loop_inv A row ab ae (fun done s => frep mask base (length flags) (l_vals L) (rp B done) s)); auto.
      intros done j k a rest s Hl Hj Hk Ha Hkc HI. rewrite rp_snoc.
      apply (mcaStepV_inv v A B M row mb me Hco Hrow HsB HsM Hmb Hme Hkey (frep mask base (length flags) (l_vals L)) (flagMatch mul add A B base mb)); auto.
      + lia.
      + intros. apply frep_skip; auto.
      + intros d q c a' b' j' loc s' Hq Ha' Hc' Hb' Hin HI'. eapply flagMatch_frep; eauto.
        * apply SSorted_NoDup, HsM.
        * rewrite (lr_vals _ _ _ HL). specialize (Hroom q c Hq Hin). unfold base. rewrite (lr_pos _ _ _ HL). lia.
      + rewrite Hl. apply elem_of_app. right. left. }
  change (for_ ab ae _ (fl, l_vals L)) with (for_ ab ae (fun j s => mcaStepV v A B M mb me j (flagMatch mul add A B base mb j) s) (fl, l_vals L)).
  rewrite Hfor, bind_Ok. pose proof (fr_nf _ _ _ _ _ _ Hrep) as Hnf. cbn [fst] in Hnf.
  destruct (gatherL_ok M row mb me base est (row_prods A B row) fl' vals' L dn cap HM HrM Hmb Hme HL) as (ids & vals2 & Hg & HL'); auto.
  - unfold base. rewrite (lr_pos _ _ _ HL). reflexivity.
  - intros p c Hc Hs. apply (Hroom p c Hc). apply touched_colval, Hs.
  - rewrite Hnf. exact Hrep.
  - rewrite Hg, bind_Ok. rewrite mrow_spec in *. eexists fl', _. split; [reflexivity|]. auto.
Qed.
End McaRow.
