(** Proofs about the driver of masked-spgemm-poly.h. *)
From Coq Require Import NArith.
From Verif Require Import MsaModel MsaStatements McaModel McaProofs MemModel MemProofs BaseProofs ConcProofs ScanProofs ScanStatements WorkProofs Assemble
  DriverModel DriverBase DriverProofs AlgModel AlgProofs DriverStatements InnerDriverStatements PolyModel.
From Verif Require Import Base Spec.

Section Poly.
Context {V : Type} (mul add : V -> V -> V) (A B M : csr V).
Hypothesis HC : compatible A B M.
Hypothesis HsB : sorted_rows B.
Hypothesis HsM : sorted_rows M.
Hypothesis Hrows : 1 <= rows A.
Context (sz sE : N) (mx : nat).
Hypothesis Hsz : (0 < sz)%N.
Hypothesis HsE : (0 < sE)%N.
Hypothesis Hmx : forall i, i < rows A -> length (row_cols M i) <= mx.
Hypothesis Hfit : ((N.of_nat (cols B) + 1) * (sz + 1) + (N.of_nat mx + 1) * sE + N.lcm sz sE + 8 < 2 ^ 64)%N.
Notation n := (rows A).
Notation rspec := (spec_row mul add A B M).
Notation ev := (@event loc (val V)).
Notation pre := (pre rspec).

(** Only the flags matter: scanInputs is called with all of them set. *)
Definition flagsAlg : rowalg V :=
  mkRowalg V false true true true unit unit (fun _ => Err AssertFail) (fun _ _ => Err AssertFail) (fun _ _ _ _ _ _ => Err AssertFail)
    (fun _ => mkBuf 0 0 0 (fun _ => false)) (fun _ _ => Err AssertFail) (fun _ _ _ _ _ _ _ => Err AssertFail).
Notation flops := (DriverProofs.flops flagsAlg A B M).
Notation total := (DriverProofs.total flagsAlg A B M).

Lemma poly_req p : pIdx p = cols B -> pM p <= mx ->
  polyReq sz sE p = (N.max (N.of_nat (cols B) * (1 + sz)) (N.of_nat (pM p) * sE), N.lcm sz sE).
Proof.
  clear Hrows. intros Hi Hm. change (2 ^ 64)%N with SZ in Hfit. unfold polyReq, msaReq, both_req, msa2_req, mca_req. rewrite Hi. cbn [fst snd].
  assert (Hm' : (N.of_nat (pM p) <= N.of_nat mx)%N) by lia. set (k := N.of_nat (pM p)) in *. set (c := N.of_nat (cols B)) in *.
  assert (k * sE < SZ)%N by nia. assert (c * (1 + sz) < SZ)%N by nia.
  rewrite wadd_small by nia. rewrite !wmul_small by nia. rewrite !lcm_1_l. f_equal. nia.
Qed.
Lemma poly_al : (0 < N.lcm sz sE /\ N.lcm sz sE + 8 < SZ)%N.
Proof. clear Hrows. change (2 ^ 64)%N with SZ in Hfit. split; [apply lcm_pos; assumption|nia]. Qed.

Lemma poly_set p b : pIdx p = cols B -> pM p <= mx -> MemProofs.fresh (polyReq sz sE p) b ->
  exists p1 p2, polySet (V := V) sz sE p b = Ok (p1, p2) /\ p_acc p1 = msa_clean (cols B) /\ p_acc p2 = mca_clean (pM p) /\
    (sz * N.of_nat (cols B) <= p_off p1 /\ p_off p1 + N.of_nat (cols B) <= b_size b /\ p_off p2 + sE * N.of_nat (pM p) <= b_size b)%N.
Proof.
  clear Hrows. intros Hi Hm Hf. rewrite poly_req in Hf by assumption. destruct Hf as (Ha & Hs & Hd). cbn [fst snd] in Ha, Hs.
  change (2 ^ 64)%N with SZ in Hfit. unfold polySet. rewrite Hi.
  assert (Hm' : (N.of_nat (pM p) <= N.of_nat mx)%N) by lia.
  assert (B1 : (N.of_nat (pM p) * sE + sE < SZ)%N) by nia. assert (B2 : (N.of_nat (cols B) * (1 + sz) + (1 + sz) < SZ)%N) by nia.
  assert (B3 : (b_size b + sE + 1 < SZ)%N).
  { rewrite Hs. destruct (N.max_spec (N.of_nat (cols B) * (1 + sz)) (N.of_nat (pM p) * sE)) as [[_ ->]|[_ ->]]; nia. }
  destruct (msa2_set_ok (V := V) true sz (cols B) b) as (b1 & off1 & -> & Q); [exact Hsz|lia|lia| |].
  { unfold msa2_req. constructor; cbn [fst snd].
    - rewrite lcm_1_l. eapply mod_lcm_l; [exact Ha|assumption..].
    - rewrite wadd_small, wmul_small by lia. lia.
    - lia.
    - lia.
    - intros i. lia. }
  cbn [bind p_buf].
  destruct (mca_set_ok (V := V) sE (pM p) (mkBuf (b_addr b) (b_size b) (b_dirty b) (b_ff b1))) as (b2 & off2 & -> & Q2); [exact HsE|lia| |].
  { unfold mca_req. constructor; cbn [fst snd b_addr b_size b_dirty].
    - eapply mod_lcm_r; [exact Ha|assumption..].
    - rewrite wmul_small by lia. lia.
    - lia.
    - lia.
    - intros i. cbn [b_dirty b_size]. lia. }
  cbn [bind]. eexists _, _. split; [reflexivity|]. cbn [p_acc p_off]. split; [reflexivity|]. split; [reflexivity|].
  destruct Q, Q2. cbn [b_size] in *. lia.
Qed.


Context (nt : nat) (Hnt : 1 <= nt).
Section Cut.
Context (cum : list nat) (cut : nat -> nat).
Hypothesis Hcut0 : cut 0 = 0.
Hypothesis Hcutn : cut nt = n.
Hypothesis Hcutm : forall t, t < nt -> cut t <= cut (t + 1).
Hypothesis Hdist : forall t, t < nt -> distributeWork total cum n nt t = Ok (cut t, cut (t + 1)).
Notation tnv := (tnv rspec cut).
Notation tout := (tout rspec cut).
Notation fl := (nprodsM A B M).

Definition evP_row (i : nat) : list ev := if fl i =? 0 then [EWr (aNv, i) (VN 0)] else [].
Definition evP (t : nat) : list ev := mjoin (evP_row <$> seq (cut t) (cut (t + 1) - cut t)) ++ [EWr (aTn, t) (VN (tnv t))].

Lemma numericPoly_solo iA iB iM sc e t : deref e iA = Ok A -> deref e iB = Ok B -> deref e iM = Ok M -> t < nt ->
  exists m', solo (startMem n nt) (numericPoly mul add sz sE iA iB iM nt sc flops cum total e t) (evP t) (mkT1 (cut t) (cut (t + 1)) (tout t)) m'.
Proof.
  intros HA HB HM Ht.
  pose proof (cut_range flagsAlg A B M rspec Hrows nt Hnt cum cut Hcut0 Hcutn Hcutm Hdist t Ht) as Hr.
  assert (SM : forall i, i < n -> StronglySorted lt (row_cols M i)) by (intros i Hi; apply HsM; rewrite (co_rows _ _ _ HC); exact Hi).
  assert (ND : forall i, i < n -> NoDup (row_cols M i)) by (intros i Hi; apply SSorted_NoDup, SM, Hi).
  set (p := paramsOf flagsAlg A B M (cut t) (cut (t + 1))).
  assert (Hp : pM p <= mx).
  { unfold p, paramsOf. cbn. apply maxOver_le with (n := n); [lia|]. intros i Hi. rewrite <- row_cols_length. apply Hmx, Hi. }
  assert (Hlen : forall row, cut t <= row < cut (t + 1) -> length (row_cols M row) <= pM p).
  { intros row Hrow. rewrite row_cols_length. unfold p, paramsOf. cbn. apply (maxOver_ge (fun i => length (row_entries M i)) _ _ row Hrow). }
  pose proof (poly_req p eq_refl Hp) as Hreq.
  assert (Hfr : MemProofs.fresh (polyReq sz sE p) (allocBuf sc t (polyReq sz sE p))) by (rewrite Hreq; apply allocBuf_fresh, poly_al).
  destruct (poly_set p (allocBuf sc t (polyReq sz sE p)) eq_refl Hp Hfr) as (p1 & p2 & Hset & E1 & E2 & _).
  set (cap := sumOver (boundOf flagsAlg A B M) (cut t) (cut (t + 1))).
  set (Inv := fun i (s : msa V * mca V * out V) (m : gmap loc (val V)) =>
    s = (msa_clean (cols B), mca_clean (pM p), mkOut (rowsOf rspec (cut t) i) cap) /\ forall l, is_Some (startMem (V := V) n nt !! l) -> is_Some (m !! l)).
  assert (Hloop : exists s' m', solo (startMem n nt) (pfor_n (cut (t + 1) - cut t) (cut t) (rowPoly mul add flops A B M) (p_acc p1, p_acc p2, mkOut [] cap))
      (mjoin (evP_row <$> seq (cut t) (cut (t + 1) - cut t))) s' m' /\ Inv (cut t + (cut (t + 1) - cut t)) s' m').
  { apply solo_pfor_n.
    - intros i s m Hi (-> & Hd). unfold rowPoly. assert (Hin : i < n) by lia.
      assert (Hdom : is_Some (m !! (aNv, i))) by (apply Hd, (startMem_nv rspec n nt cut Hnt Hcut0 Hcutn Hcutm i Hin)).
      unfold evP_row. pose proof (flops_get flagsAlg A B M i Hin) as Hg. cbn in Hg.
      destruct (Nat.eqb_spec (fl i) 0) as [Hz|Hnz].
      + pose proof (plain_zero mul add A B M i Hz) as Hnil.
        eexists _, (<[(aNv, i) := VN 0]> m). split.
        * eapply solo_lift; [exact Hg|]. rewrite Hz. cbn [Nat.eqb negb]. apply solo_wr; [exact Hdom|constructor].
        * unfold Inv. rewrite rowsOf_S, Hnil, app_nil_r by lia. split; [reflexivity|].
          intros l Hl. destruct (decide (l = (aNv, i))) as [->|Hne]; [rewrite lookup_insert; eauto|rewrite lookup_insert_ne by congruence; auto].
      + assert (Hcap : length (rowsOf rspec (cut t) i) + length (rspec i) <= cap).
        { rewrite rowsOf_length by lia. unfold cap.
          assert (H1 : pre (S i) - pre (cut t) <= sumOver (boundOf flagsAlg A B M) (cut t) (S i)).
          { rewrite pre_sumOver by lia. apply sumOver_le. intros j Hj. unfold boundOf, flopsOf. cbn.
            pose proof (plain_len mul add A B M j (ND j ltac:(lia))). pose proof (plain_length_mask mul add A B M j). rewrite <- row_cols_length. lia. }
          pose proof (sumOver_mono (boundOf flagsAlg A B M) (cut t) (S i) (cut (t + 1)) ltac:(lia)) as H2.
          rewrite pre_S in H1. pose proof (pre_le rspec (cut t) i ltac:(lia)) as H3. lia. }
        eexists _, m. split; [|unfold Inv; split; [reflexivity|exact Hd]]. rewrite rowsOf_S by lia.
        eapply solo_lift; [exact Hg|]. rewrite (proj2 (Nat.eqb_neq _ _) Hnz). cbn [negb].
        destruct (row_bounds_wf M i (co_M _ _ _ HC)) as (mb & me & _ & _ & _ & _ & HbM); [rewrite (co_rows _ _ _ HC); exact Hin|].
        destruct (row_bounds_wf A i (co_A _ _ _ HC)) as (ab & ae & _ & _ & _ & _ & HbA); [exact Hin|].
        eapply solo_lift; [exact HbM|]. eapply solo_lift; [exact HbA|]. cbn beta iota.
        destruct (_ <? _).
        * eapply solo_lift; [apply mcaNumericRow_correct; auto; [apply (mask_ne A B M i Hnz)|apply Hlen; lia]|]. constructor.
        * eapply solo_lift; [apply st_msa_numeric; auto|]. constructor.
    - unfold Inv. rewrite rowsOf_nil by lia. rewrite E1, E2. auto. }
  destruct Hloop as (s' & m' & Hs & -> & Hd).
  replace (cut t + (cut (t + 1) - cut t)) with (cut (t + 1)) in * by lia.
  exists (<[(aTn, t) := VN (tnv t)]> m'). unfold numericPoly.
  eapply solo_lift; [exact HA|]. eapply solo_lift; [exact HB|]. eapply solo_lift; [exact HM|].
  eapply solo_lift; [apply Hdist, Ht|]. cbn beta iota.
  eapply solo_lift; [exact (scan_ok flagsAlg A B M rspec HC Hrows nt Hnt cum cut Hcut0 Hcutn Hcutm Hdist true t Ht)|]. cbn beta iota.
  eapply solo_lift; [exact Hset|]. cbn beta iota.
  unfold evP. eapply solo_bind; [exact Hs|]. cbn beta iota. cbn [o_done].
  change (rowsOf rspec (cut t) (cut (t + 1))) with (tout t). rewrite (tout_length rspec nt cut Hcutm t Ht).
  apply solo_wr; [apply Hd, (startMem_tn rspec n nt cut Hnt Hcut0 Hcutn Hcutm t Ht)|]. constructor.
Qed.

Lemma evP_cases t x : x ∈ evP t -> (exists i, cut t <= i < cut (t + 1) /\ fl i = 0 /\ x = EWr (aNv, i) (VN 0)) \/ x = EWr (aTn, t) (VN (tnv t)).
Proof.
  unfold evP. rewrite elem_of_app, elem_of_events. intros [(i & Hi & Hin)|Hin].
  - left. exists i. unfold evP_row in Hin. destruct (Nat.eqb_spec (fl i) 0) as [Hz|Hz]; [|inversion Hin].
    apply elem_of_list_singleton in Hin. split; [lia|auto].
  - right. apply elem_of_list_singleton in Hin. exact Hin.
Qed.

Lemma phase1_poly iA iB iM sc e ss : deref e iA = Ok A -> deref e iB = Ok B -> deref e iM = Ok M -> length ss = nt ->
  exists m1, always (startMem n nt, imap (fun t (_ : t1 (V := V)) => numericPoly mul add sz sE iA iB iM nt sc flops cum total e t) ss) m1 (state1 rspec cut <$> seq 0 nt) /\
    (forall t, t < nt -> m1 !! (aTn, t) = Some (VN (tnv t))) /\
    (forall i, i < n -> m1 !! (aNv, i) = Some (if fl i =? 0 then VN 0 else VU)).
Proof.
  intros HA HB HM Hl.
  destruct (owned_phase_t nt ss (fun e t (_ : t1 (V := V)) => numericPoly mul add sz sE iA iB iM nt sc flops cum total e t) e (startMem n nt) evP (state1 rspec cut)
    (own1 cut) (fun t l => if fst l =? aNv then Some (VN 0) else Some (VN (tnv t))) Hl) as (m1 & H1 & H2 & H3).
  - intros t s Ht _. apply numericPoly_solo; assumption.
  - intros t l v Ht Hin. apply evP_cases in Hin as [(i & Hi & _ & E)|E]; injection E as -> ->.
    + split; [left; auto|reflexivity].
    + split; [right; auto|reflexivity].
  - intros t u l Ht Hu Hin. apply evP_cases in Hin as [(i & Hi & _ & E)|E]; discriminate.
  - intros t u l. apply (own1_excl rspec n nt cut Hnt Hcut0 Hcutn Hcutm).
  - exists m1. split; [exact H1|]. split.
    + intros t Ht. apply (H2 t); [exact Ht|]. unfold evP. apply elem_of_app. right. left.
    + intros i Hi. destruct (cut_cover cut nt i Hcut0 ltac:(lia)) as (t & Ht & Hc). destruct (Nat.eqb_spec (fl i) 0) as [Hz|Hz].
      * apply (H2 t _ _ Ht). unfold evP. rewrite elem_of_app, elem_of_events. left. exists i. split; [lia|].
        unfold evP_row. rewrite Hz. left.
      * rewrite H3.
        -- unfold startMem. rewrite lookup_union, !cells_lookup. simpl. rewrite lookup_replicate_2 by lia. reflexivity.
        -- intros u v _ Hin. apply evP_cases in Hin as [(j & Hj & Hz' & E)|E]; [injection E as -> _; contradiction|discriminate].
Qed.

Lemma initC_poly (iA iB iC : nat) (e : gmap nat (obj V)) (m : gmap loc (val V)) nc :
  e !! iA = Some (OMat A) -> colsOf e iB = Ok nc -> (forall t, t < nt -> m !! (aTn, t) = Some (VN (tnv t))) ->
  exists m', initC iA iB iC nt e m = Ok (<[iC := OFresh n nc (pre n)]> e, m') /\
    (forall a i, a < 2 -> m' !! (a, i) = m !! (a, i)) /\ (forall i, i <= n -> is_Some (m' !! (aRp, i))).
Proof.
  intros HA HB Htn. unfold initC, deref. rewrite HA. cbn [bind]. rewrite HB. cbn [bind].
  destruct (for_inv (fun t s => s = pre (cut t)) (fun t s => match m !! (aTn, t) with Some (VN x) => Ok (s + x) | Some _ => Err Uninit | None => Err OutOfBounds end) 0 nt 0)
    as (s & -> & ->).
  - lia.
  - rewrite Hcut0. reflexivity.
  - intros t s Ht ->. rewrite Htn by lia. eexists. split; [reflexivity|]. unfold DriverBase.tnv.
    pose proof (pcut_le rspec nt cut Hcutm t ltac:(lia)). lia.
  - cbn [bind]. rewrite Hcutn. eexists. split; [reflexivity|]. split.
    + intros a i Ha. rewrite lookup_union_r; [reflexivity|]. rewrite !lookup_union_None, !cells_lookup.
      unfold aRp, aCi, aVa. repeat rewrite decide_False by lia. auto.
    + intros i Hi. rewrite !lookup_union, !cells_lookup. simpl. rewrite lookup_replicate_2 by lia.
      destruct (m !! _); simpl; eauto.
Qed.

Lemma rows_fail (k lo off : nat) (m : gmap loc (val V)) : lo + k <= n -> (forall i, i <= n -> is_Some (m !! (aRp, i))) ->
  (forall i, i < n -> m !! (aNv, i) = Some (if fl i =? 0 then VN 0 else VU)) -> (exists i, lo <= i < lo + k /\ fl i <> 0) ->
  fails m (pfor_n k lo (fun i off => Wr (aRp, i) (VN off) (pbind (rdN (aNv, i)) (fun x => Ret (off + x)))) off) Uninit.
Proof.
  clear Hdist. revert lo off m. induction k as [|k IH]; intros lo off m Hk Hrp Hnv (i & Hi & Hf); [lia|]. cbn [pfor_n pbind].
  assert (Hnv' : forall v j, j < n -> <[(aRp, lo) := v]> m !! (aNv, j) = Some (if fl j =? 0 then VN 0 else VU)).
  { intros v j Hj. rewrite lookup_insert_ne by (unfold aRp, aNv; congruence). apply Hnv, Hj. }
  apply fails_wr; [apply Hrp; lia|]. unfold rdN. cbn [pbind]. eapply fails_rd; [apply Hnv'; lia|].
  destruct (Nat.eqb_spec (fl lo) 0) as [Hz|Hz]; [|constructor].
  cbn [pbind]. apply IH; [lia| |apply Hnv'|].
  - intros j Hj. destruct (decide (j = lo)) as [->|Hne]; [rewrite lookup_insert; eauto|rewrite lookup_insert_ne by congruence; auto].
  - exists i. split; [|exact Hf]. destruct (decide (i = lo)) as [->|]; [contradiction|lia].
Qed.
End Cut.

Lemma poly_uninit iA iB iM iC sc (s : gmap nat (obj V)) :
  s !! iA = Some (OMat A) -> s !! iB = Some (OMat B) -> s !! iM = Some (OMat M) ->
  (exists i, i < n /\ nprodsM A B M i <> 0) -> poly_faults mul add sz sE iA iB iM iC nt sc s Uninit.
Proof.
  intros HA HB HM (i & Hi & Hw).
  exists A, B, M. do 3 (split; [apply deref_mat; assumption|]). split; [apply verify_ok, HC|].
  destruct (prepare_ok flagsAlg A B M HC Hrows nt Hnt) as (cum & Lc & Hp). exists flops, cum, total. split; [exact Hp|].
  destruct (distribute_ok total cum n nt ltac:(lia) Hnt) as (cut & C0 & Cn & Cm & Hd).
  destruct (phase1_poly cum cut C0 Cn Cm Hd iA iB iM sc s (replicate nt (mkT1 0 0 []))) as (m1 & H1 & Htn & Hnv);
    [apply deref_mat; assumption..|apply replicate_length|].
  destruct (initC_poly cum cut C0 Cn Cm Hd iA iB iC s m1 (cols B) HA (colsOf_mat _ _ _ HB) Htn) as (m2 & Hi2 & Hk & Hrp).
  set (e := <[iC := OFresh n (cols B) (pre n)]> s) in *.
  unfold regionPoly. eapply ro_par; [exact (proj2 (proj2 H1))|].
  destruct (cons_states A Hrows nt Hnt (state1 rspec cut)) as (s0 & k & Es). rewrite Es. eapply ro_master; [exact Hi2|]. rewrite <- Es.
  apply ro_par_fault.
  destruct (cut_cover cut nt i C0 ltac:(lia)) as (t & Ht & Hc).
  assert (Hle : cut (t + 1) <= n) by (apply (cut_n rspec n nt cut Hnt C0 Cn Cm); lia).
  eapply fails_outcome with (t := t); [|rewrite list_lookup_imap, list_lookup_fmap, lookup_seq_lt by exact Ht; reflexivity].
  assert (He : e !! iC = Some (OFresh n (cols B) (pre n))) by apply lookup_insert.
  unfold output1p, fresh_dims. rewrite He. cbn [lift pbind]. apply fails_bind. cbn [Nat.add t1_rb t1_re state1]. unfold setRowOffsets.
  destruct (solo_pfor_n (fun i s m' => s = pre (cut i) /\ m' = m2) (fun i => [ERd (aTn, i)])
    (fun i acc => pbind (rdN (aTn, i)) (fun x => Ret (acc + x))) t 0 0 m2) as (s1 & m3 & Hs1 & -> & ->).
  { intros j s' m' Hj [-> ->]. exists (pre (cut (S j))), m2. split; [|auto].
    replace [ERd (aTn, j)] with ([ERd (aTn, j)] ++ @nil ev) by reflexivity.
    eapply solo_bind; [apply solo_rdN; rewrite Hk by (unfold aTn; lia); apply Htn; lia|].
    replace (pre (cut j) + tnv rspec cut j) with (pre (cut (S j))); [constructor|].
    unfold tnv. rewrite Nat.add_1_r. pose proof (pcut_le rspec nt cut Cm j ltac:(lia)) as Hpl. rewrite Nat.add_1_r in Hpl. lia. }
  { rewrite C0. auto. }
  eapply solo_fails; [unfold pfor; rewrite Nat.sub_0_r; exact Hs1|]. apply fails_bind. unfold pfor. eapply rows_fail; [exact C0|exact Cn|exact Cm|..].
  - lia.
  - exact Hrp.
  - intros j Hj. rewrite Hk by (unfold aNv; lia). apply Hnv, Hj.
  - exists i. split; [lia|exact Hw].
Qed.

Lemma poly_no_work iA iB iM iC sc (s : gmap nat (obj V)) :
  s !! iA = Some (OMat A) -> s !! iB = Some (OMat B) -> s !! iM = Some (OMat M) ->
  (forall i, i < n -> nprodsM A B M i = 0) ->
  poly_always mul add sz sE iA iB iM iC nt sc s (<[iC := OMat (assemble rspec n (cols B))]> s).
Proof.
  intros HA HB HM Hz. exists A, B, M. do 3 (split; [apply deref_mat; assumption|]). split; [apply verify_ok, HC|].
  destruct (prepare_ok flagsAlg A B M HC Hrows nt Hnt) as (cum & Lc & Hp). exists flops, cum, total. split; [exact Hp|].
  destruct (distribute_ok total cum n nt ltac:(lia) Hnt) as (cut & C0 & Cn & Cm & Hd).
  destruct (phase1_poly cum cut C0 Cn Cm Hd iA iB iM sc s (replicate nt (mkT1 0 0 []))) as (m1 & H1 & Htn & Hnv);
    [apply deref_mat; assumption..|apply replicate_length|].
  destruct (initC_ok rspec n nt cut Hnt C0 Cn Cm iA iB iC s m1 A (cols B) HA (colsOf_mat _ _ _ HB) eq_refl) as (m2 & Hi & Hm2); [|exact Htn|].
  { intros i Hi. rewrite Hnv, (Hz i Hi), (plain_zero mul add A B M i (Hz i Hi)) by exact Hi. reflexivity. }
  set (e := <[iC := OFresh n (cols B) (pre n)]> s).
  destruct (phase3_1p flagsAlg A B M rspec Hrows nt Hnt cum cut C0 Cn Cm Hd iC (cols B) e m2) as [(m3 & H3 & Ho) _]; [apply lookup_insert|exact Hm2|].
  exists e, m3, (state1 rspec cut <$> seq 0 nt). split.
  - unfold regionPoly. eapply ra_par; [exact H1|].
    destruct (cons_states A Hrows nt Hnt (state1 rspec cut)) as (s0 & k & Es). rewrite Es. eapply ra_master; [exact Hi|]. rewrite <- Es.
    eapply ra_par; [exact H3|]. constructor.
  - exists (assemble rspec n (cols B)). split; [exact Ho|]. unfold e. rewrite insert_insert. reflexivity.
Qed.
End Poly.
