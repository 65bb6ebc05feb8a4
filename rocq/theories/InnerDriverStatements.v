(** The inner-product drivers: combined statements, aliasing fault, data races. *)
From Coq Require Import NArith.
From stdpp Require Import numbers.
From Verif Require Import MemModel BaseProofs ConcProofs ScanProofs ScanStatements WorkModel WorkProofs InnerModel InnerProofs HeapStatements Assemble DriverModel DriverBase DriverProofs
  DriverStatements RaceProofs InnerDriverModel InnerDriverProofs.
From Verif Require Import Base Spec.

(** The one-phase inner-product driver, given objects that hold A, B (by columns) and M, always ends with [C]
    in the output object and every other object as before, for every number of threads and every
    schedule; the output object may be any object. *)
Definition yieldsI1p {V} (mul add : V -> V -> V) (A : csr V) (B : csc V) (M C : csr V) : Prop :=
  forall (nt iA iB iM iC : nat) (s : gmap nat (obj V)), 1 <= nt ->
    s !! iA = Some (OMat A) -> s !! iB = Some (OCsc B) -> s !! iM = Some (OMat M) ->
    inner1p_always mul add iA iB iM iC nt s (<[iC := OMat C]> s).
(** The two-phase driver: the output object must not be an input. *)
Definition yieldsI2p {V} (mul add : V -> V -> V) (A : csr V) (B : csc V) (M C : csr V) : Prop :=
  forall (nt iA iB iM iC : nat) (s : gmap nat (obj V)), 1 <= nt -> iC <> iA -> iC <> iB -> iC <> iM ->
    s !! iA = Some (OMat A) -> s !! iB = Some (OCsc B) -> s !! iM = Some (OMat M) ->
    inner2p_always mul add iA iB iM iC nt s (<[iC := OMat C]> s).

(** What the inner product needs of its inputs: B given by columns, indices ascending. *)
Record inner_inputs {V} (A B M : csr V) (Bc : csc V) : Prop := mkII {
  ii_compat : compatible A B M;
  ii_csc : wf_csc Bc;
  ii_same : same_matrix B Bc;
  ii_A : sorted_rows A;
  ii_B : distinct_rows B;
  ii_Bc : sorted_cols Bc }.

(** The parallel regions have no data race. *)
Definition inner1p_race_free {V} (mul add : V -> V -> V) (iA iB iM iC nt : nat) (s : gmap nat (obj V)) : Prop :=
  exists A B M, s !! iA = Some (OMat A) /\ s !! iB = Some (OCsc B) /\ s !! iM = Some (OMat M) /\
  exists work cum total, prepareI_always A B M nt work cum total /\
  region_race_free (regionI1p mul add iA iB iM iC nt work cum total) s (startMemI (rows M) nt (nnz M)) (replicate nt (mkTi 0 0 0)).
Definition inner2p_race_free {V} (mul add : V -> V -> V) (iA iB iM iC nt : nat) (s : gmap nat (obj V)) : Prop :=
  exists A B M, s !! iA = Some (OMat A) /\ s !! iB = Some (OCsc B) /\ s !! iM = Some (OMat M) /\
  exists work cum total, prepareI_always A B M nt work cum total /\
  region_race_free (regionI2p mul add iA iB iM iC nt work cum total) s (startMem (rows M) nt) (replicate nt (mkTi 0 0 0)).
(** Every thread but the last is given at least one row. *)
Definition all_busyI {V} (A : csr V) (B : csc V) (M : csr V) (nt : nat) : Prop :=
  exists work cum total, prepareI_always A B M nt work cum total /\
  forall t, t + 1 < nt -> exists rb re, distributeWork total cum (rows A) nt t = Ok (rb, re) /\ rb < re.

(** ** A thread that fails when it runs alone *)
Section Fails.
Context {L Val : Type} `{Countable L}.
Notation mem := (gmap L Val).
Inductive fails {R} : mem -> prog L Val R -> fault -> Prop :=
| fails_now m f : fails m (Fail f) f
| fails_rd m l k v f : m !! l = Some v -> fails m (k v) f -> fails m (Rd l k) f
| fails_wr m l v k f : is_Some (m !! l) -> fails (<[l := v]> m) k f -> fails m (Wr l v k) f.
Lemma fails_bind {R S} m (p : prog L Val R) (k : R -> prog L Val S) f : fails m p f -> fails m (pbind p k) f.
Proof. induction 1; simpl; econstructor; eauto. Qed.
Lemma solo_fails {R S} m (p : prog L Val R) evs r m' (k : R -> prog L Val S) f : solo m p evs r m' -> fails m' (k r) f -> fails m (pbind p k) f.
Proof. induction 1 as [| |? ? ? ? ? ? [v Hv]|]; simpl; intros Hf; [exact Hf|econstructor; eauto| |econstructor; eauto]. econstructor; [exact Hv|eauto]. Qed.
Lemma fails_outcome {R} m (p : prog L Val R) f : fails m p f -> forall ps t, ps !! t = Some p -> outcome (m, ps) (Err f).
Proof.
  intros Hf ps t Hp. assert (HE : exists m' ps', rtc step (m, ps) (m', ps') /\ ps' !! t = Some (Fail f)).
  { revert ps Hp. induction Hf as [m f|m l k v f Hl Hf IH|m l v k f Hl Hf IH]; intros ps Hp.
    - exists m, ps. split; [constructor|exact Hp].
    - destruct (IH (<[t := k v]> ps)) as (m' & ps' & Hr & Hp'); [apply list_lookup_insert, lookup_lt_is_Some; eauto|].
      exists m', ps'. split; [|exact Hp']. eapply rtc_l; [econstructor; eassumption|exact Hr].
    - destruct (IH (<[t := k]> ps)) as (m' & ps' & Hr & Hp'); [apply list_lookup_insert, lookup_lt_is_Some; eauto|].
      exists m', ps'. split; [|exact Hp']. eapply rtc_l; [econstructor; eassumption|exact Hr]. }
  destruct HE as (m' & ps' & Hr & Hp'). eapply out_fault; [exact Hr|exact Hp'|reflexivity].
Qed.
End Fails.

Section St.
Context {V : Type} (mul add : V -> V -> V) (A B M : csr V) (Bc : csc V).
Context (HI : inner_inputs A B M Bc) (Hr : 1 <= rows A).
Notation rspec := (spec_row mul add A B M).
Notation n := (rows A).

Lemma WA : wf A. Proof. apply HI. Qed.
Lemma WM : wf M. Proof. apply HI. Qed.
Lemma Hin : cols A = c_rows Bc. Proof. destruct HI as [[] ? [] ]. congruence. Qed.
Lemma HMr : rows M = rows A. Proof. destruct HI as [[] ? [] ]. congruence. Qed.
Lemma HMc : cols M = c_cols Bc. Proof. destruct HI as [[] ? [] ]. congruence. Qed.
Lemma inner_num row dn cap : row < n -> length dn + length (rspec row) <= cap ->
  innerNumericRow mul add A Bc M row (mkOut dn cap) = Ok (mkOut (dn ++ rspec row) cap).
Proof. intros Hrow Hc. destruct HI. apply innerNumericRow_correct; auto. Qed.
Lemma inner_sym row : row < n -> innerSymbolicRow A Bc M row = Ok (length (rspec row)).
Proof. intros Hrow. destruct HI. apply innerSymbolicRow_correct; auto. Qed.
Lemma inner_len row : row < n -> length (rspec row) <= length (row_entries M row).
Proof.
  intros _. rewrite <- (fmap_length fst), spec_row_keys, <- row_cols_length. apply filter_length.
Qed.
Lemma inner_zero row : row < n -> workOf A Bc M row = 0 -> rspec row = [].
Proof.
  intros Hrow Hz. apply (fmap_nil_inv fst). rewrite spec_row_keys. destruct (filter _ _) as [|c l0] eqn:EF; [reflexivity|]. exfalso.
  assert (Hf : c ∈ filter (fun c => c ∈ touched_cols A B row) (row_cols M row)) by (rewrite EF; left). apply elem_of_list_filter in Hf as [Ht Hc].
  unfold touched_cols in Ht. apply elem_of_list_join in Ht as (l & Hl & Hk). apply elem_of_list_fmap in Hk as ([k a] & -> & Hk). cbn [fst] in Hl.
  destruct HI as [HC WB [Sr Sc Se] _ _ _]. destruct HC as [HA HB HM Hc1 Hr1 Hc2].
  assert (Hkr : k < rows B) by (rewrite <- Hc1; eapply row_entries_range; eauto).
  apply elem_of_list_fmap in Hl as ([c' b] & -> & Hb). cbn [fst] in *.
  assert (Hcb : c' < cols B) by (eapply row_entries_range; eauto).
  apply (Se k c' b Hkr Hcb) in Hb. unfold workOf in Hz.
  assert (Hall : forall l : list nat, sum_list l = 0 -> forall x, x ∈ l -> x = 0).
  { induction l as [|y l IH]; intros Hs x Hx; [inversion Hx|]. simpl in Hs. apply elem_of_cons in Hx as [->|Hx]; [lia|apply IH; [lia|exact Hx]]. }
  pose proof (Hall _ Hz) as Hw. cbv zeta in Hw.
  match type of Hw with forall x, x ∈ ?f <$> _ -> _ => specialize (Hw (f c') (elem_of_list_fmap_1 f _ _ Hc)) end. cbv beta in Hw.
  destruct (row_entries A row) as [|x l1]; [inversion Hk|]. destruct (col_entries Bc c') as [|y l2]; [inversion Hb|]. simpl in Hw. lia.
Qed.

Lemma inner1p_yields : yieldsI1p mul add A Bc M (assemble rspec n (cols B)).
Proof.
  intros nt iA iB iM iC s Hnt HA HB HM. rewrite (sm_cols _ _ (ii_same _ _ _ _ HI)). pose proof (ii_csc _ _ _ _ HI) as WB.
  apply (inner1p_ok mul add A M Bc rspec WA WB WM Hin HMr HMc inner_num inner_sym inner_len inner_zero Hr nt Hnt); auto.
Qed.
Lemma inner2p_yields : yieldsI2p mul add A Bc M (assemble rspec n (cols B)).
Proof.
  intros nt iA iB iM iC s Hnt NA NB NM HA HB HM. rewrite (sm_cols _ _ (ii_same _ _ _ _ HI)). pose proof (ii_csc _ _ _ _ HI) as WB.
  apply (inner2p_ok mul add A M Bc rspec WA WB WM Hin HMr HMc inner_num inner_sym inner_len inner_zero Hr nt Hnt); auto.
Qed.

Lemma work_nonzero i c : c ∈ row_cols M i -> row_entries A i <> [] -> col_entries Bc c <> [] -> workOf A Bc M i <> 0.
Proof.
  clear HI Hr. unfold workOf. induction (row_cols M i) as [|d l IH]; intros Hc Ha Hb Hz; [inversion Hc|].
  rewrite fmap_cons in Hz. simpl in Hz. apply elem_of_cons in Hc as [<-|Hc]; [|apply IH; try assumption; lia].
  destruct (row_entries A i); [congruence|]. destruct (col_entries Bc c); [congruence|]. simpl in Hz. lia.
Qed.

(** ** The two-phase driver reads its inputs after it has replaced the output *)
Section Alias.
Context (nt : nat) (Hnt : 1 <= nt).
Notation pre := (pre rspec).
Lemma nrows_fail iA iB iM (e : gmap nat (obj V)) nn p q k lo dn m :
  (deref e iA = Err UseAfterFree \/ deref e iA = Ok A /\ deref_csc e iB = Ok Bc /\ deref e iM = Err UseAfterFree) ->
  lo + k <= n -> (forall i, i < n -> is_Some (m !! (aNv, i))) -> (exists i, lo <= i < lo + k /\ workOf A Bc M i <> 0) ->
  fails m (pfor_n k lo (nrowI2p mul add iA iB iM (work A M Bc) e nn p q) dn) UseAfterFree.
Proof.
  intros HD. revert lo dn m. induction k as [|k IH]; intros lo dn m Hk Hm (i & Hi & Hw); [lia|]. cbn [pfor_n]. unfold nrowI2p at 1.
  rewrite (work_get A M Bc lo ltac:(lia)). cbn [lift pbind].
  destruct (Nat.eqb_spec (workOf A Bc M lo) 0) as [Hz|Hnz].
  - cbn [pbind]. apply fails_wr; [apply Hm; lia|]. apply IH; [lia| |].
    + intros j Hj. destruct (decide (j = lo)) as [->|Hne]; [rewrite lookup_insert; eauto|rewrite lookup_insert_ne by congruence; auto].
    + exists i. split; [|exact Hw]. destruct (decide (i = lo)) as [->|]; [contradiction|lia].
  - destruct HD as [E|(E1 & E2 & E3)]; [rewrite E; cbn [lift pbind]; constructor|].
    rewrite E1, E2, E3. cbn [lift pbind]. constructor.
Qed.

Lemma inner2p_alias iA iB iM iC (s : gmap nat (obj V)) :
  s !! iA = Some (OMat A) -> s !! iB = Some (OCsc Bc) -> s !! iM = Some (OMat M) -> iC = iA \/ iC = iM ->
  (exists i, i < n /\ workOf A Bc M i <> 0) -> inner2p_faults mul add iA iB iM iC nt s UseAfterFree.
Proof.
  intros HA HB HM Hal (i & Hi & Hw). pose proof (ii_csc _ _ _ _ HI) as WB.
  exists A, Bc, M. split; [apply deref_mat; assumption|]. split; [apply deref_cscm; assumption|]. split; [apply deref_mat; assumption|].
  split; [apply verifyI_ok; [exact Hin|exact HMr|exact HMc]|].
  destruct (prepareI_ok mul add A M Bc rspec WA WB WM Hin HMr HMc inner_num inner_sym inner_len inner_zero Hr nt Hnt) as (cum & Lc & Hp). exists (work A M Bc), cum, (wtotal A M Bc). split; [exact Hp|].
  destruct (distribute_ok (wtotal A M Bc) cum n nt ltac:(lia) Hnt) as (cut & C0 & Cn & Cm & Hd).
  destruct (phase1_I2p mul add A M Bc rspec Hin HMr HMc inner_num inner_sym inner_len inner_zero Hr nt Hnt cum cut C0 Cn Cm Hd iA iB iM s (replicate nt (mkTi 0 0 0))) as [(m1 & H1 & Hnv & Htn) _];
    [apply deref_mat; assumption|apply deref_cscm; assumption|apply deref_mat; assumption|apply replicate_length|].
  destruct (initC_ok rspec n nt cut Hnt C0 Cn Cm iA iB iC s m1 A (c_cols Bc) HA (colsOf_csc _ _ _ HB) eq_refl Hnv Htn) as (m2 & Hi2 & Hm2).
  set (e := <[iC := OFresh n (c_cols Bc) (pre n)]> s).
  unfold regionI2p. rewrite HMr. eapply ro_par; [exact (proj2 (proj2 H1))|].
  destruct (cons_states A Hr nt Hnt (state2I cut)) as (s0 & k & Es). rewrite Es. eapply ro_master; [exact Hi2|]. rewrite <- Es. fold e.
  apply ro_par_fault.
  destruct (cut_cover cut nt i C0 ltac:(lia)) as (t & Ht & Hc).
  assert (Hle : cut (t + 1) <= n) by (apply (cut_n rspec n nt cut Hnt C0 Cn Cm); lia).
  eapply fails_outcome with (t := t); [|rewrite list_lookup_imap, list_lookup_fmap, lookup_seq_lt by exact Ht; reflexivity].
  assert (He : e !! iC = Some (OFresh n (c_cols Bc) (pre n))) by apply lookup_insert.
  unfold numericI2p, fresh_dims. rewrite He. cbn [lift pbind].
  destruct (setRowOffsets_solo rspec n nt cut Hnt C0 Cn Cm m2 t Ht Hm2) as (m3 & Hs3 & Hm3 & Hk3).
  eapply solo_fails; [exact Hs3|]. unfold state2I. cbn [Nat.add ti_rb ti_re].
  eapply fails_rd; [apply Hk3; lia|]. eapply fails_rd; [apply Hk3; lia|]. apply fails_bind. unfold pfor. apply nrows_fail.
  - unfold deref, deref_csc, e. destruct (decide (iC = iA)) as [->|Hne]; [left; rewrite lookup_insert; reflexivity|].
    right. destruct Hal as [->| ->]; [congruence|]. assert (iM <> iB) by congruence.
    rewrite lookup_insert, !lookup_insert_ne by congruence. rewrite HA, HB. auto.
  - lia.
  - intros j Hj. rewrite (m3_nv _ _ _ _ _ Hm3) by exact Hj. eauto.
  - exists i. split; [lia|exact Hw].
Qed.

(** ** Data races *)
Lemma prepareI_unique w1 c1 t1 w2 c2 t2 : prepareI_always A Bc M nt w1 c1 t1 -> prepareI_always A Bc M nt w2 c2 t2 -> w1 = w2 /\ c1 = c2 /\ t1 = t2.
Proof.
  intros [H1 S1] [H2 S2]. assert (E : w1 = w2 /\ t1 = t2) by (eapply parfor_unique; eauto). destruct E as [<- <-].
  split; [reflexivity|]. split; [|reflexivity]. eapply excScan_unique; eauto.
Qed.

Lemma regionI1p_race iA iB iM iC (s : gmap nat (obj V)) cum cut :
  s !! iA = Some (OMat A) -> s !! iB = Some (OCsc Bc) -> s !! iM = Some (OMat M) ->
  cut 0 = 0 -> cut nt = n -> (forall t, t < nt -> cut t <= cut (t + 1)) ->
  (forall t, t < nt -> distributeWork (wtotal A M Bc) cum n nt t = Ok (cut t, cut (t + 1))) ->
  region_race_free (regionI1p mul add iA iB iM iC nt (work A M Bc) cum (wtotal A M Bc)) s (startMemI n nt (nnz M)) (replicate nt (mkTi 0 0 0)) <->
  (forall t, t + 1 < nt -> cut t < cut (t + 1)).
Proof.
  intros HA HB HM C0 Cn Cm Hd. pose proof (ii_csc _ _ _ _ HI) as WB.
  destruct (phase1_I1p mul add A M Bc rspec WM Hin HMr HMc inner_num inner_sym inner_len inner_zero Hr nt Hnt cum cut C0 Cn Cm Hd iA iB iM s (replicate nt (mkTi 0 0 0)))
    as [(m1 & H1 & Hnv & Htn & Htmp) Hrf1];
    [apply deref_mat; assumption|apply deref_cscm; assumption|apply deref_mat; assumption|apply replicate_length|].
  destruct (initC_ok rspec n nt cut Hnt C0 Cn Cm iA iB iC s m1 A (c_cols Bc) HA (colsOf_csc _ _ _ HB) eq_refl Hnv Htn) as (m2 & Hi & Hm2).
  assert (Htmp2 : tmp_ok M rspec nt cut m2).
  { assert (Hkeep : forall a i, 4 < a -> m2 !! (a, i) = m1 !! (a, i)) by (eapply initC_keep; exact Hi).
    intros t k x Ht Hk. rewrite !Hkeep by (unfold aTc, aTv; lia). apply (Htmp t k x Ht Hk). }
  set (e := <[iC := OFresh n (c_cols Bc) (pre n)]> s) in *.
  assert (He : e !! iC = Some (OFresh n (c_cols Bc) (pre n))) by apply lookup_insert.
  destruct (cons_states A Hr nt Hnt (stateI M cut)) as (s0 & k & Es). rewrite Es in H1.
  unfold regionI1p. rewrite (region3_race _ _ _ _ _ _ _ _ _ _ _ Hrf1 H1 Hi), <- Es.
  apply (nonempty_iff A nt Hnt Hr).
  - apply (phase3_I1p mul add A M Bc rspec Hin HMr HMc inner_num inner_sym inner_len inner_zero Hr nt Hnt cum cut C0 Cn Cm Hd iC (c_cols Bc) e m2 He Hm2 Htmp2).
  - intros t Ht Hge. destruct (sro_conflict A rspec nt Hnt Hr cut C0 Cn Cm t Ht Hge) as (u & v & b1 & b2 & Hu & Hne & Eu).
    destruct (outputI1p_solo mul add A M Bc rspec Hin HMr HMc inner_num inner_sym inner_len inner_zero Hr nt Hnt cum cut C0 Cn Cm Hd iC (c_cols Bc) e m2 t He Hm2 Htmp2 ltac:(lia)) as (mt & St).
    destruct (outputI1p_solo mul add A M Bc rspec Hin HMr HMc inner_num inner_sym inner_len inner_zero Hr nt Hnt cum cut C0 Cn Cm Hd iC (c_cols Bc) e m2 u He Hm2 Htmp2 Hu) as (mu & Su).
    eapply (solo_race _ _ t u) with (a1 := ev_sro rspec n nt cut t ++ [ERd (aTn, t)]).
    + exact Hne.
    + rewrite list_lookup_imap, list_lookup_fmap, lookup_seq_lt by lia. reflexivity.
    + rewrite list_lookup_imap, list_lookup_fmap, lookup_seq_lt by lia. reflexivity.
    + exact St.
    + exact Su.
    + unfold ev3I. rewrite <- app_assoc. simpl. unfold ev_pos at 1. destruct (Nat.ltb_spec (cut t) (cut (t + 1))); [lia|]. reflexivity.
    + intros l' v' Hin'. apply elem_of_app in Hin' as [Hin'|Hin']; [revert Hin'; apply (sro_reads A rspec nt Hnt Hr cut); assumption|].
      apply elem_of_list_singleton in Hin'. discriminate.
    + unfold ev3I. rewrite Eu, <- app_assoc. reflexivity.
Qed.
Lemma regionI2p_race iA iB iM iC (s : gmap nat (obj V)) cum cut :
  s !! iA = Some (OMat A) -> s !! iB = Some (OCsc Bc) -> s !! iM = Some (OMat M) -> iC <> iA -> iC <> iB -> iC <> iM ->
  cut 0 = 0 -> cut nt = n -> (forall t, t < nt -> cut t <= cut (t + 1)) ->
  (forall t, t < nt -> distributeWork (wtotal A M Bc) cum n nt t = Ok (cut t, cut (t + 1))) ->
  region_race_free (regionI2p mul add iA iB iM iC nt (work A M Bc) cum (wtotal A M Bc)) s (startMem n nt) (replicate nt (mkTi 0 0 0)) <->
  (forall t, t + 1 < nt -> cut t < cut (t + 1)).
Proof.
  intros HA HB HM NA NB NM C0 Cn Cm Hd. pose proof (ii_csc _ _ _ _ HI) as WB.
  destruct (phase1_I2p mul add A M Bc rspec Hin HMr HMc inner_num inner_sym inner_len inner_zero Hr nt Hnt cum cut C0 Cn Cm Hd iA iB iM s (replicate nt (mkTi 0 0 0))) as [(m1 & H1 & Hnv & Htn) Hrf1];
    [apply deref_mat; assumption|apply deref_cscm; assumption|apply deref_mat; assumption|apply replicate_length|].
  destruct (initC_ok rspec n nt cut Hnt C0 Cn Cm iA iB iC s m1 A (c_cols Bc) HA (colsOf_csc _ _ _ HB) eq_refl Hnv Htn) as (m2 & Hi & Hm2).
  set (e := <[iC := OFresh n (c_cols Bc) (pre n)]> s) in *.
  assert (He : e !! iC = Some (OFresh n (c_cols Bc) (pre n))) by apply lookup_insert.
  assert (HD : forall i, i < n -> workOf A Bc M i <> 0 -> deref e iA = Ok A /\ deref_csc e iB = Ok Bc /\ deref e iM = Ok M).
  { intros _ _ _. split; [|split]; [apply deref_mat|apply deref_cscm|apply deref_mat]; unfold e; rewrite lookup_insert_ne by congruence; assumption. }
  destruct (cons_states A Hr nt Hnt (state2I cut)) as (s0 & k & Es). rewrite Es in H1.
  unfold regionI2p. rewrite (region3_race _ _ _ _ _ _ _ _ _ _ _ Hrf1 H1 Hi), <- Es.
  apply (nonempty_iff A nt Hnt Hr).
  - apply (phase3_I2p mul add A M Bc rspec Hin HMr HMc inner_num inner_sym inner_len inner_zero Hr nt Hnt cum cut C0 Cn Cm Hd iA iB iM iC (c_cols Bc) e m2 He HD Hm2).
  - intros t Ht Hge. destruct (sro_conflict A rspec nt Hnt Hr cut C0 Cn Cm t Ht Hge) as (u & v & b1 & b2 & Hu & Hne & Eu).
    destruct (numericI2p_solo mul add A M Bc rspec Hin HMr HMc inner_num inner_sym inner_len inner_zero Hr nt Hnt cum cut C0 Cn Cm Hd iA iB iM iC (c_cols Bc) e m2 t He HD Hm2 ltac:(lia)) as (mt & St).
    destruct (numericI2p_solo mul add A M Bc rspec Hin HMr HMc inner_num inner_sym inner_len inner_zero Hr nt Hnt cum cut C0 Cn Cm Hd iA iB iM iC (c_cols Bc) e m2 u He HD Hm2 Hu) as (mu & Su).
    eapply (solo_race _ _ t u) with (a1 := ev_sro rspec n nt cut t).
    + exact Hne.
    + rewrite list_lookup_imap, list_lookup_fmap, lookup_seq_lt by lia. reflexivity.
    + rewrite list_lookup_imap, list_lookup_fmap, lookup_seq_lt by lia. reflexivity.
    + exact St.
    + exact Su.
    + unfold evnI. unfold ev_pos at 1. destruct (Nat.ltb_spec (cut t) (cut (t + 1))); [lia|]. reflexivity.
    + intros l' v'. apply (sro_reads A rspec nt Hnt Hr cut); assumption.
    + unfold evnI. rewrite Eu, <- app_assoc. reflexivity.
Qed.

Lemma inner1p_race_iff iA iB iM iC (s : gmap nat (obj V)) :
  s !! iA = Some (OMat A) -> s !! iB = Some (OCsc Bc) -> s !! iM = Some (OMat M) ->
  inner1p_race_free mul add iA iB iM iC nt s <-> all_busyI A Bc M nt.
Proof.
  intros HA HB HM. pose proof (ii_csc _ _ _ _ HI) as WB.
  destruct (prepareI_ok mul add A M Bc rspec WA WB WM Hin HMr HMc inner_num inner_sym inner_len inner_zero Hr nt Hnt) as (cum & Lc & Hp).
  destruct (distribute_ok (wtotal A M Bc) cum n nt ltac:(lia) Hnt) as (cut & C0 & Cn & Cm & Hd). split.
  - intros (A' & B' & M' & HA' & HB' & HM' & f & c & t & Hp' & Hrf). simplify_eq.
    destruct (prepareI_unique _ _ _ _ _ _ Hp Hp') as (<- & <- & <-).
    exists (work A M Bc), cum, (wtotal A M Bc). split; [exact Hp|]. apply (busy_cut A nt Hnt Hr _ _ _ Hd).
    rewrite HMr in Hrf. apply (regionI1p_race iA iB iM iC s cum cut HA HB HM C0 Cn Cm Hd), Hrf.
  - intros (f & c & t & Hp' & Hb). destruct (prepareI_unique _ _ _ _ _ _ Hp Hp') as (<- & <- & <-).
    exists A, Bc, M. do 3 (split; [assumption|]). exists (work A M Bc), cum, (wtotal A M Bc). split; [exact Hp|].
    rewrite HMr. apply (regionI1p_race iA iB iM iC s cum cut HA HB HM C0 Cn Cm Hd). apply (busy_cut A nt Hnt Hr _ _ _ Hd), Hb.
Qed.
Lemma inner2p_race_iff iA iB iM iC (s : gmap nat (obj V)) :
  s !! iA = Some (OMat A) -> s !! iB = Some (OCsc Bc) -> s !! iM = Some (OMat M) -> iC <> iA -> iC <> iB -> iC <> iM ->
  inner2p_race_free mul add iA iB iM iC nt s <-> all_busyI A Bc M nt.
Proof.
  intros HA HB HM NA NB NM. pose proof (ii_csc _ _ _ _ HI) as WB.
  destruct (prepareI_ok mul add A M Bc rspec WA WB WM Hin HMr HMc inner_num inner_sym inner_len inner_zero Hr nt Hnt) as (cum & Lc & Hp).
  destruct (distribute_ok (wtotal A M Bc) cum n nt ltac:(lia) Hnt) as (cut & C0 & Cn & Cm & Hd). split.
  - intros (A' & B' & M' & HA' & HB' & HM' & f & c & t & Hp' & Hrf). simplify_eq.
    destruct (prepareI_unique _ _ _ _ _ _ Hp Hp') as (<- & <- & <-).
    exists (work A M Bc), cum, (wtotal A M Bc). split; [exact Hp|]. apply (busy_cut A nt Hnt Hr _ _ _ Hd).
    rewrite HMr in Hrf. apply (regionI2p_race iA iB iM iC s cum cut HA HB HM NA NB NM C0 Cn Cm Hd), Hrf.
  - intros (f & c & t & Hp' & Hb). destruct (prepareI_unique _ _ _ _ _ _ Hp Hp') as (<- & <- & <-).
    exists A, Bc, M. do 3 (split; [assumption|]). exists (work A M Bc), cum, (wtotal A M Bc). split; [exact Hp|].
    rewrite HMr. apply (regionI2p_race iA iB iM iC s cum cut HA HB HM NA NB NM C0 Cn Cm Hd). apply (busy_cut A nt Hnt Hr _ _ _ Hd), Hb.
Qed.

Lemma too_many_threadsI : rows A + 1 < nt -> ~ all_busyI A Bc M nt.
Proof.
  intros Hlt (f & c & t & Hp' & Hb). pose proof (ii_csc _ _ _ _ HI) as WB.
  destruct (prepareI_ok mul add A M Bc rspec WA WB WM Hin HMr HMc inner_num inner_sym inner_len inner_zero Hr nt Hnt) as (cum & Lc & Hp).
  destruct (prepareI_unique _ _ _ _ _ _ Hp Hp') as (<- & <- & <-).
  destruct (distribute_ok (wtotal A M Bc) cum n nt ltac:(lia) Hnt) as (cut & C0 & Cn & Cm & Hd).
  rewrite (busy_cut A nt Hnt Hr _ _ _ Hd) in Hb.
  assert (Hge : forall k, k + 1 <= nt -> k <= cut k).
  { induction k as [|k IH]; [lia|]. intros Hk. specialize (IH ltac:(lia)). specialize (Hb k ltac:(lia)). replace (S k) with (k + 1) by lia. lia. }
  specialize (Hge (nt - 1) ltac:(lia)). pose proof (Cm (nt - 1) ltac:(lia)) as H. replace (nt - 1 + 1) with nt in H by lia. lia.
Qed.
End Alias.
End St.

(** ** Unique outcome *)
Lemma inner1p_unique {V} (mul add : V -> V -> V) iA iB iM iC nt s s1 s2 :
  inner1p_always mul add iA iB iM iC nt s s1 -> inner1p_always mul add iA iB iM iC nt s s2 -> s1 = s2.
Proof.
  intros (A & B & M & HA & HB & HM & _ & f & c & t & Hp & e & m & ss & HR & C & HC & ->)
         (A' & B' & M' & HA' & HB' & HM' & _ & f' & c' & t' & Hp' & e' & m' & ss' & HR' & C' & HC' & ->).
  rewrite HA in HA'. rewrite HB in HB'. rewrite HM in HM'. injection HA' as <-. injection HB' as <-. injection HM' as <-.
  destruct (prepareI_unique _ _ _ _ _ _ _ _ _ _ Hp Hp') as (<- & <- & <-).
  destruct (region_unique _ _ _ _ _ _ _ _ _ _ HR HR') as (<- & <- & <-). rewrite HC in HC'. injection HC' as <-. reflexivity.
Qed.
Lemma inner2p_unique {V} (mul add : V -> V -> V) iA iB iM iC nt s s1 s2 :
  inner2p_always mul add iA iB iM iC nt s s1 -> inner2p_always mul add iA iB iM iC nt s s2 -> s1 = s2.
Proof.
  intros (A & B & M & HA & HB & HM & _ & f & c & t & Hp & e & m & ss & HR & C & HC & ->)
         (A' & B' & M' & HA' & HB' & HM' & _ & f' & c' & t' & Hp' & e' & m' & ss' & HR' & C' & HC' & ->).
  rewrite HA in HA'. rewrite HB in HB'. rewrite HM in HM'. injection HA' as <-. injection HB' as <-. injection HM' as <-.
  destruct (prepareI_unique _ _ _ _ _ _ _ _ _ _ Hp Hp') as (<- & <- & <-).
  destruct (region_unique _ _ _ _ _ _ _ _ _ _ HR HR') as (<- & <- & <-). rewrite HC in HC'. injection HC' as <-. reflexivity.
Qed.
