(** HeapSpGEMMImpl: executions that cannot end well. *)
From stdpp Require Import numbers.
From Coq Require Import NArith.
From Verif Require Import MemModel BaseProofs ConcProofs WorkProofs DriverModel DriverProofs RaceProofs LegacyScanModel BinProofs
  DriverStatements KernelBase McaModel HeapModel HeapPrimProofs HeapProofs HeapStatements HeapImplModel HeapImplRowProofs HeapImplProofs.
From Verif Require Import Base Spec.

Section NoRet.
Context {L Val : Type} `{Countable L}.

(** The program returns on no path. *)
Fixpoint noret {R} (p : prog L Val R) : Prop :=
  match p with
  | Ret _ => False
  | Fail _ => True
  | Rd _ k => forall v, noret (k v)
  | Wr _ _ k => noret k
  end.
Lemma noret_bind_l {R R'} (p : prog L Val R) (k : R -> prog L Val R') : noret p -> noret (pbind p k).
Proof. induction p as [r|l k' IH|l v p IH|f]; simpl; intros Hp; [contradiction|intros v; apply IH, Hp|apply IH, Hp|exact I]. Qed.
Lemma noret_bind_r {R R'} (p : prog L Val R) (k : R -> prog L Val R') : (forall r, noret (k r)) -> noret (pbind p k).
Proof. intros Hk. induction p as [r|l k' IH|l v p IH|f]; simpl; [apply Hk|intros v; apply IH|exact IH|exact I]. Qed.
Lemma noret_lift {R R'} (x : res R) (k : R -> prog L Val R') : (forall r, x = Ok r -> noret (k r)) -> noret (pbind (lift x) k).
Proof. intros Hk. destruct x; [apply Hk; reflexivity|exact I]. Qed.
Lemma noret_pfor_n {S} (body : nat -> S -> prog L Val S) i : (forall s, noret (body i s)) ->
  forall n lo s, lo <= i < lo + n -> noret (pfor_n n lo body s).
Proof.
  intros Hb. induction n as [|n IH]; intros lo s Hi; [lia|]. simpl. destruct (decide (i = lo)) as [->|Hne]; [apply noret_bind_l, Hb|].
  apply noret_bind_r. intros s'. apply IH. lia.
Qed.
Lemma noret_step {R} (c c' : cfg R) : step c c' -> forall (t : nat) p, c.2 !! t = Some p -> noret p -> exists p', c'.2 !! t = Some p' /\ noret p'.
Proof.
  intros Hs t p Hp Hn. destruct Hs as [m ps u l k v Hu Hv|m ps u l v k Hu Hv]; cbn [snd] in *; destruct (decide (u = t)) as [->|Hne].
  - rewrite Hp in Hu. injection Hu as ->. exists (k v). split; [apply list_lookup_insert, lookup_lt_is_Some; eauto|apply Hn].
  - exists p. rewrite list_lookup_insert_ne by exact Hne. auto.
  - rewrite Hp in Hu. injection Hu as ->. exists k. split; [apply list_lookup_insert, lookup_lt_is_Some; eauto|apply Hn].
  - exists p. rewrite list_lookup_insert_ne by exact Hne. auto.
Qed.
Lemma noret_always {R} (m : gmap L Val) (ps : list (prog L Val R)) (t : nat) p m' rs : ps !! t = Some p -> noret p -> ~ always (m, ps) m' rs.
Proof.
  intros Hp Hn (_ & _ & Ho). inversion Ho as [|m1 rs1 Hr]; subst.
  assert (HH : forall (c c' : cfg R), rtc step c c' -> forall p, c.2 !! t = Some p -> noret p -> exists p', c'.2 !! t = Some p' /\ noret p').
  { induction 1 as [c|c c1 c2 H1 _ IH]; [eauto|]. intros q Hq Hnq. destruct (noret_step _ _ H1 t q Hq Hnq) as (q' & Hq' & Hnq'). apply (IH q' Hq' Hnq'). }
  destruct (HH _ _ Hr p Hp Hn) as (q & Hq & Hnq). cbn [snd] in Hq. rewrite list_lookup_fmap in Hq.
  destruct (rs !! t); [|discriminate]. injection Hq as <-. exact Hnq.
Qed.
End NoRet.

Lemma for_length {T} (body : nat -> list T -> res (list T)) n : (forall i l l', body i l = Ok l' -> length l' = length l) ->
  forall lo l l', for_n n lo body l = Ok l' -> length l' = length l.
Proof.
  intros Hb. induction n as [|n IH]; intros lo l l' Hf; simpl in Hf; [injection Hf as <-; reflexivity|].
  destruct (body lo l) as [l1|] eqn:E; [|discriminate]. cbn [bind] in Hf. rewrite (IH _ _ _ Hf). eapply Hb, E.
Qed.
Lemma set_length {T} (l l' : list T) i x : set_ l i x = Ok l' -> length l' = length l.
Proof. unfold set_. destruct (i <? length l); [|discriminate]. intros E. injection E as <-. apply insert_length. Qed.
Lemma lscan_length {T} (zero : T) plus top src N nts out out' : lScan_always zero plus top src N nts out out' -> length out' = length out.
Proof.
  unfold lScan_always. destruct (lIsSeq N).
  - unfold lseqScan. destruct (set_ out 0 (Some zero)) as [d|] eqn:E; [|discriminate]. cbn [bind]. intros Hf.
    rewrite <- (set_length _ _ _ _ E). unfold for_ in Hf. eapply for_length; [|exact Hf]. intros i l l' Hb. cbn beta in Hb.
    destruct (getI l i) as [x|]; [|discriminate]. cbn [bind] in Hb. destruct (get src i) as [y|]; [|discriminate]. cbn [bind] in Hb. eapply set_length, Hb.
  - intros (m & _ & Hs & _). exact Hs.
Qed.

Lemma hResetC_other {V} iA iB iC (s s1 : gmap nat (obj V)) j : hResetC iA iB iC s = Ok s1 -> j <> iC -> s1 !! j = s !! j.
Proof.
  unfold hResetC. intros Hr Hj. destruct (deref s iC) as [C|]; [|discriminate]. cbn [bind] in Hr. cbv zeta in Hr.
  destruct (deref (if nnz C =? 0 then s else _) iA) as [A|]; [|discriminate]. cbn [bind] in Hr.
  destruct (deref (if nnz C =? 0 then s else _) iB) as [B|]; [|discriminate]. cbn [bind] in Hr. injection Hr as <-.
  rewrite lookup_insert_ne by congruence. destruct (nnz C =? 0); [reflexivity|]. rewrite lookup_insert_ne by congruence. reflexivity.
Qed.

(** What a good run has done before the parallel region. *)
Lemma driverH_region {V} (alg : halg V) top nts iA iB iM iC nt s s' : HeapSpGEMMImpl_always alg top nts iA iB iM iC nt s s' ->
  exists s1 A' B' flops cum total, hResetC iA iB iC s = Ok s1 /\ deref s1 iA = Ok A' /\ deref s1 iB = Ok B' /\ rows A' <> 0 /\ length cum = rows A' /\
    (wf A' -> wf B' -> cols A' = rows B' -> flops = hflops A' B') /\
    forall (t : nat), t < nt -> ~ noret (numericH alg iA iB iM nt flops cum total s1 t).
Proof.
  intros (s1 & H1 & A' & B' & H2 & H3 & flops & total & Hp & st & cum & Hst & Hsc & e & m & ss & Hreg & _).
  exists s1, A', B', flops, cum, (total * 2 / 2). do 3 (split; [assumption|]).
  assert (Hr0 : rows A' <> 0) by (intros E; rewrite E in Hst; discriminate). split; [exact Hr0|]. split; [|split].
  - apply lscan_length in Hsc. apply set_length in Hst. rewrite fmap_length in Hsc. rewrite replicate_length in Hst. lia.
  - intros W1 W2 W3. destruct (parfor_always_unique _ _ _ _ _ _ _ Hp (hflops_ok A' B' W1 W2 W3 ltac:(lia) 1 ltac:(lia))) as [E _]. apply (inj (fmap Some)) in E. exact E.
  - intros t Ht Hn. unfold regionH in Hreg. inversion Hreg as [|? ? ? ? ? m1 ss1 ? ? ? Hal _|]; subst. revert Hal.
    eapply (noret_always _ _ t); [|exact Hn]. rewrite list_lookup_imap, lookup_replicate_2 by exact Ht. reflexivity.
Qed.

(** A row that cannot succeed, whatever came before it. *)
Lemma driverH_stuck_row {V} (alg : halg V) A B top nts iA iB iM iC nt M s i : 1 <= nt ->
  s !! iA = Some (OMat A) -> s !! iM = Some (OMat M) -> iC <> iA -> iC <> iM -> i < rows A ->
  (forall aux L r, ha_row alg A B M i aux L <> Ok r) -> s !! iB = Some (OMat B) -> iC <> iB ->
  ~ exists s', HeapSpGEMMImpl_always alg top nts iA iB iM iC nt s s'.
Proof.
  intros Hnt HA HM H1 H2 Hi Hrow HB H3 (s' & Hs).
  destruct (driverH_region _ _ _ _ _ _ _ _ _ _ Hs) as (s1 & A' & B' & flops & cum & total & Hr & HA' & HB' & _ & Hc & _ & Hn).
  assert (Hs1 : forall j, j <> iC -> s1 !! j = s !! j).
  { intros j Hj. exact (hResetC_other _ _ _ _ _ j Hr Hj). }
  assert (EA : deref s1 iA = Ok A) by (apply deref_mat; rewrite Hs1 by congruence; exact HA).
  assert (EB : deref s1 iB = Ok B) by (apply deref_mat; rewrite Hs1 by congruence; exact HB).
  assert (EM : deref s1 iM = Ok M) by (apply deref_mat; rewrite Hs1 by congruence; exact HM).
  rewrite EA in HA'. injection HA' as <-.
  destruct (distribute_ok total cum (rows A) nt ltac:(lia) Hnt) as (cut & C0 & Cn & Cm & Hd).
  destruct (cut_cover cut nt i C0 ltac:(lia)) as (t & Ht & Hct). apply (Hn t Ht). unfold numericH.
  apply noret_lift. rewrite EA. intros A2 E. injection E as <-.
  apply noret_lift. rewrite EB. intros B2 E. injection E as <-.
  apply noret_lift. rewrite EM. intros M2 E. injection E as <-.
  apply noret_lift. rewrite (Hd t Ht). intros [rb re] E. injection E as <- <-.
  apply noret_lift. intros est _. apply noret_lift. intros aux _.
  apply noret_bind_l. unfold pfor. apply (noret_pfor_n _ i); [|lia]. intros [[a L] n]. unfold rowH. apply noret_lift. intros r Er. exfalso.
  eapply Hrow; exact Er.
Qed.

Section Stuck.
Context {V : Type} (alg : halg V) (A B : csr V).
Hypothesis HwA : wf A.
Hypothesis HwB : wf B.
Hypothesis Hcols : cols A = rows B.

(** One row: the local output has exactly the room estimated for it. *)
Lemma driverH_stuck_single top nts iA iB iM iC nt M s : 1 <= nt ->
  s !! iA = Some (OMat A) -> s !! iB = Some (OMat B) -> s !! iM = Some (OMat M) -> iC <> iA -> iC <> iB -> iC <> iM -> rows A = 1 ->
  (forall est aux r, ha_est alg (hflops A B) M 0 1 = Ok est -> ha_alloc alg A M 0 1 = Ok aux -> ha_row alg A B M 0 aux (lnew est) <> Ok r) ->
  ~ exists s', HeapSpGEMMImpl_always alg top nts iA iB iM iC nt s s'.
Proof.
  intros Hnt HA HB HM H1 H2 H3 Hr1 Hrow (s' & Hs).
  destruct (driverH_region _ _ _ _ _ _ _ _ _ _ Hs) as (s1 & A' & B' & flops & cum & total & Hr & HA' & HB' & _ & Hc & Hfl & Hn).
  assert (Hs1 : forall j, j <> iC -> s1 !! j = s !! j).
  { intros j Hj. exact (hResetC_other _ _ _ _ _ j Hr Hj). }
  assert (EA : deref s1 iA = Ok A) by (apply deref_mat; rewrite Hs1 by congruence; exact HA).
  assert (EB : deref s1 iB = Ok B) by (apply deref_mat; rewrite Hs1 by congruence; exact HB).
  assert (EM : deref s1 iM = Ok M) by (apply deref_mat; rewrite Hs1 by congruence; exact HM).
  rewrite EA in HA'. injection HA' as <-. rewrite EB in HB'. injection HB' as <-. rewrite (Hfl HwA HwB Hcols) in Hn.
  destruct (distribute_ok total cum (rows A) nt ltac:(lia) Hnt) as (cut & C0 & Cn & Cm & Hd).
  destruct (cut_cover cut nt 0 C0 ltac:(lia)) as (t & Ht & Hct).
  assert (Hcn : cut (t + 1) <= 1) by (rewrite <- Hr1, <- Cn; apply (cut_le cut nt); [exact Cm|lia]).
  assert (E0 : cut t = 0) by lia. assert (E1 : cut (t + 1) = 1) by lia.
  apply (Hn t Ht). unfold numericH.
  apply noret_lift. rewrite EA. intros A2 E. injection E as <-.
  apply noret_lift. rewrite EB. intros B2 E. injection E as <-.
  apply noret_lift. rewrite EM. intros M2 E. injection E as <-.
  apply noret_lift. rewrite (Hd t Ht), E0, E1. intros [rb re] E. injection E as <- <-.
  apply noret_lift. intros est Eest. apply noret_lift. intros aux Eaux.
  apply noret_bind_l. unfold pfor. simpl. apply noret_bind_l. unfold rowH. apply noret_lift. intros r Er. exfalso. exact (Hrow est aux r Eest Eaux Er).
Qed.

(** One thread: the estimate is of all rows together. *)
Lemma driverH_stuck_est top nts iA iB iM iC M s :
  s !! iA = Some (OMat A) -> s !! iB = Some (OMat B) -> s !! iM = Some (OMat M) -> iC <> iA -> iC <> iB -> iC <> iM ->
  (forall est, ha_est alg (hflops A B) M 0 (rows A) <> Ok est) ->
  ~ exists s', HeapSpGEMMImpl_always alg top nts iA iB iM iC 1 s s'.
Proof.
  intros HA HB HM H1 H2 H3 Hest (s' & Hs).
  destruct (driverH_region _ _ _ _ _ _ _ _ _ _ Hs) as (s1 & A' & B' & flops & cum & total & Hr & HA' & HB' & _ & Hc & Hfl & Hn).
  assert (EA : deref s1 iA = Ok A) by (apply deref_mat; rewrite (hResetC_other _ _ _ _ _ iA Hr) by congruence; exact HA).
  assert (EB : deref s1 iB = Ok B) by (apply deref_mat; rewrite (hResetC_other _ _ _ _ _ iB Hr) by congruence; exact HB).
  assert (EM : deref s1 iM = Ok M) by (apply deref_mat; rewrite (hResetC_other _ _ _ _ _ iM Hr) by congruence; exact HM).
  rewrite EA in HA'. injection HA' as <-. rewrite EB in HB'. injection HB' as <-. rewrite (Hfl HwA HwB Hcols) in Hn.
  destruct (distribute_ok total cum (rows A) 1 ltac:(lia) ltac:(lia)) as (cut & C0 & Cn & Cm & Hd).
  apply (Hn 0 ltac:(lia)). unfold numericH.
  apply noret_lift. rewrite EA. intros A2 E. injection E as <-.
  apply noret_lift. rewrite EB. intros B2 E. injection E as <-.
  apply noret_lift. rewrite EM. intros M2 E. injection E as <-.
  apply noret_lift. rewrite (Hd 0 ltac:(lia)), C0. cbn [Nat.add]. rewrite Cn. intros [rb re] E. injection E as <- <-.
  apply noret_lift. intros est Eest. exfalso. exact (Hest est Eest).
Qed.
End Stuck.

(** C a matrix with entries that is also an operand or the mask. *)
Lemma driverH_alias {V} (alg : halg V) top nts iA iB iM iC nt s C0 s' : 1 <= nt -> s !! iC = Some (OMat C0) -> nnz C0 <> 0 ->
  iC = iA \/ iC = iB \/ iC = iM -> ~ HeapSpGEMMImpl_always alg top nts iA iB iM iC nt s s'.
Proof.
  intros Hnt HC Hz Hal Hs. destruct (driverH_region _ _ _ _ _ _ _ _ _ _ Hs) as (s1 & A' & B' & flops & cum & total & Hr & HA & HB & _ & _ & _ & Hn).
  unfold hResetC in Hr. rewrite (deref_mat _ _ _ HC) in Hr. cbn [bind] in Hr. cbv zeta in Hr.
  destruct (Nat.eqb_spec (nnz C0) 0) as [|_]; [contradiction|].
  assert (Hd : deref (<[iC:=OFresh 0 0 0]> s) iC = Err UseAfterFree) by (unfold deref; rewrite lookup_insert; reflexivity).
  destruct (deref (<[iC:=OFresh 0 0 0]> s) iA) as [A|] eqn:EA; [|discriminate]. cbn [bind] in Hr.
  destruct (deref (<[iC:=OFresh 0 0 0]> s) iB) as [B|] eqn:EB; [|discriminate]. cbn [bind] in Hr. injection Hr as Hr.
  destruct Hal as [->|[->| ->]]; [congruence|congruence|]. apply (Hn 0 ltac:(lia)). unfold numericH.
  apply noret_lift. intros A2 _. apply noret_lift. intros B2 _. apply noret_lift. intros M2 E. exfalso. rewrite <- Hr in E.
  unfold deref in E. rewrite lookup_insert in E. discriminate.
Qed.

(** ** Uniqueness *)
Lemma lscan_unique top (src : list nat) n nts st d1 d2 :
  lScan_always 0 Nat.add top src n nts st (Some <$> d1) -> lScan_always 0 Nat.add top src n nts st (Some <$> d2) -> d1 = d2.
Proof.
  unfold lScan_always. destruct (lIsSeq n).
  - intros H1 H2. rewrite H1 in H2. injection H2 as H2. apply (inj (fmap Some)) in H2. exact H2.
  - intros (m1 & R1 & L1 & S1) (m2 & R2 & L2 & S2). destruct (region_unique _ _ _ _ _ _ _ _ _ _ R1 R2) as (_ & <- & _).
    apply (inj (fmap Some)). apply list_eq. intros i. destruct (Nat.lt_ge_cases i (length st)) as [Hi|Hi].
    + rewrite <- S1, <- S2 by exact Hi. reflexivity.
    + rewrite !lookup_ge_None_2; [reflexivity|rewrite L2; exact Hi|rewrite L1; exact Hi].
Qed.
Lemma driverH_unique {V} (alg : halg V) top nts iA iB iM iC nt s s1 s2 :
  HeapSpGEMMImpl_always alg top nts iA iB iM iC nt s s1 -> HeapSpGEMMImpl_always alg top nts iA iB iM iC nt s s2 -> s1 = s2.
Proof.
  intros (t1 & H1 & A & B & HA & HB & f & to & Hp & st & cum & Hst & Hsc & e & m & ss & HR & C & HC & ->)
         (t1' & H1' & A' & B' & HA' & HB' & f' & to' & Hp' & st' & cum' & Hst' & Hsc' & e' & m' & ss' & HR' & C' & HC' & ->).
  rewrite H1 in H1'. injection H1' as <-. rewrite HA in HA'. injection HA' as <-. rewrite HB in HB'. injection HB' as <-.
  destruct (parfor_always_unique _ _ _ _ _ _ _ Hp Hp') as [E <-]. apply (inj (fmap Some)) in E as <-.
  rewrite Hst in Hst'. injection Hst' as <-. pose proof (lscan_unique _ _ _ _ _ _ _ Hsc Hsc') as <-.
  destruct (region_unique _ _ _ _ _ _ _ _ _ _ HR HR') as (<- & <- & <-). rewrite HC in HC'. injection HC' as <-. reflexivity.
Qed.

(** ** Rows that fail *)
Lemma for_stuck {S} (body : nat -> S -> res S) i : (forall s s', body i s <> Ok s') ->
  forall n lo s s', lo <= i < lo + n -> for_n n lo body s <> Ok s'.
Proof.
  intros Hb. induction n as [|n IH]; intros lo s s' Hi Hf; [lia|]. simpl in Hf. destruct (body lo s) as [s1|] eqn:E; [|discriminate]. cbn [bind] in Hf.
  destruct (decide (i = lo)) as [->|Hne]; [exact (Hb _ _ E)|]. eapply (IH (Datatypes.S lo)); [|exact Hf]. lia.
Qed.
Lemma entry_at {V} (A : csr V) i k : wf A -> i < rows A -> k ∈ row_cols A i ->
  exists ab ae j, rowptr A !! i = Some ab /\ rowptr A !! (i + 1) = Some ae /\ ab <= j < ae /\ colids A !! j = Some k.
Proof.
  intros HA Hi Hk. destruct (row_bounds_wf A i HA Hi) as (ab & ae & Hab & Hae & Hle & Hn & _). exists ab, ae.
  rewrite (row_cols_eq A i ab ae HA Hab Hae) in Hk. apply elem_of_list_lookup in Hk as (p & Hp).
  apply lookup_take_Some in Hp as [Hp Hlt]. rewrite lookup_drop in Hp. exists (ab + p). repeat split; [assumption..|lia|lia|assumption].
Qed.

Section Fail.
Context {V : Type} (mul add : V -> V -> V).

Lemma mcaRow_stuck v (A B M : csr V) i k fl L r : wf A -> i < rows A -> k ∈ row_cols A i ->
  (forall j mb me s s', colids A !! j = Some k -> rowptr M !! i = Some mb ->
     (match v with MV1 => mcaStep1 A B M mb me j (flagMatch mul add A B (l_pos L + 1) mb j) s
      | MV2 => mcaStep2 A B M mb me j (flagMatch mul add A B (l_pos L + 1) mb j) s
      | MV3 => mcaStep3 A B M mb me j (flagMatch mul add A B (l_pos L + 1) mb j) s end) <> Ok s') ->
  mcaRowG mul add v A B M i fl L <> Ok r.
Proof.
  intros HA Hi Hk Hs Hr. destruct (entry_at A i k HA Hi Hk) as (ab & ae & j & Hab & Hae & Hj & Hjk).
  unfold mcaRowG in Hr. unfold row_bounds at 1 in Hr. unfold get in Hr at 1. destruct (rowptr M !! i) as [mb|] eqn:Em; [|discriminate]. cbn [bind] in Hr.
  destruct (get (rowptr M) (i + 1)) as [me|]; [|discriminate]. cbn [bind] in Hr. cbv zeta in Hr.
  destruct (fillFlags fl (me - mb)) as [fl'|]; [|discriminate]. cbn [bind] in Hr.
  unfold row_bounds at 1 in Hr. rewrite (get_Some _ _ _ Hab), (get_Some _ _ _ Hae) in Hr. cbn [bind] in Hr.
  match type of Hr with bind ?f _ = _ => destruct f as [s1|] eqn:E; [|discriminate] end.
  revert E. unfold for_. apply (for_stuck _ j); [|lia]. intros s s'. apply (Hs j mb me s s' Hjk eq_refl).
Qed.

(** MCA_v1 and MCA_v2: the cell of A.colids that is read is not there. *)
Lemma mcaRow_keys_stuck v (A B M : csr V) i k bb fl L r : v <> MV3 -> wf A -> i < rows A -> k ∈ row_cols A i -> rowptr B !! k = Some bb -> nnz A <= bb ->
  mcaRowG mul add v A B M i fl L <> Ok r.
Proof.
  intros Hv HA Hi Hk Hb Hn. apply (mcaRow_stuck v A B M i k fl L r HA Hi Hk). intros j mb me s s' Hj _.
  assert (Hg : get (colids A) bb = Err OutOfBounds).
  { unfold get. rewrite lookup_ge_None_2; [reflexivity|]. rewrite (wf_colids _ HA). exact Hn. }
  destruct v; [| |contradiction]; unfold mcaStep1, mcaStep2; rewrite (get_Some _ _ _ Hj); cbn [bind]; unfold row_bounds; rewrite (get_Some _ _ _ Hb); cbn [bind];
    (destruct (get (rowptr B) (k + 1)); [|discriminate]); cbn [bind]; rewrite Hg; discriminate.
Qed.
(** MCA_v1 and MCA_v3: the first mask column is read although the mask row has none. *)
Lemma mcaRow_mask_stuck v (A B M : csr V) i k fl L r : v <> MV2 -> wf A -> wf B -> wf M -> cols A = rows B -> i < rows A -> k ∈ row_cols A i -> row_cols B k <> [] ->
  rowptr M !! i = Some (nnz M) -> mcaRowG mul add v A B M i fl L <> Ok r.
Proof.
  intros Hv HA HB HM Hc Hi Hk Hne Hm. apply (mcaRow_stuck v A B M i k fl L r HA Hi Hk). intros j mb me s s' Hj Hmb. rewrite Hm in Hmb. injection Hmb as <-.
  assert (HkB : k < rows B) by (rewrite <- Hc; eapply row_cols_range; eassumption).
  destruct (row_bounds_wf B k HB HkB) as (bb & be & Hbb & Hbe & Hle & Hn & Hrb).
  assert (Hlt : bb <> be).
  { intros ->. apply Hne. apply length_zero_iff_nil. rewrite row_cols_length, (row_entries_length B k be be HB HkB Hbb Hbe). lia. }
  assert (Hg : get (colids M) (nnz M) = Err OutOfBounds).
  { unfold get. rewrite lookup_ge_None_2; [reflexivity|]. rewrite (wf_colids _ HM). lia. }
  assert (Hme : forall on key, mcaMerge ((be - bb) + length (colids M) + 1) B M be me on bb key (nnz M) s <> Ok s').
  { intros on key. rewrite Nat.add_1_r. cbn [mcaMerge]. rewrite Hg. discriminate. }
  destruct v; [|contradiction|]; unfold mcaStep1, mcaStep3; rewrite (get_Some _ _ _ Hj); cbn [bind]; rewrite Hrb; cbn [bind].
  - destruct (get (colids A) bb) as [key|]; [|discriminate]. cbn [bind]. destruct (Nat.eqb_spec bb be); [contradiction|]. apply Hme.
  - destruct (Nat.eqb_spec bb be); [contradiction|]. destruct (get (colids B) bb) as [key|]; [|discriminate]. cbn [bind]. apply Hme.
Qed.

(** HeapLinear (and BasicHeap) without any room for entries. *)
Lemma linearRow_noroom thr (A B M : csr V) i h r : wf A -> wf B -> cols A = rows B -> i < rows A -> row_prods A B i <> [] -> length (row_entries A i) <= hcap h ->
  linearRow mul add thr A B M i h (lnew 0) <> Ok r.
Proof.
  intros HA HB Hc Hi Hne Hcap. unfold linearRow. destruct (initAll0 A B i HA HB Hc Hi M 0 0 h Hcap) as (h1 & -> & _ & _ & Hp). cbn [bind].
  assert (Hlen : length (hp h1) <> 0).
  { intros E. apply length_zero_iff_nil in E. rewrite E in Hp. apply Hne. symmetry in Hp. apply Permutation_nil_r in Hp. exact Hp. }
  destruct (if thr <? length (hp h1) then h_make h1 else Ok h1) as [h2|] eqn:E2; [|discriminate]. cbn [bind].
  assert (Hl2 : length (hp h2) <> 0).
  { destruct (thr <? length (hp h1)); [|congruence]. destruct (h_make_spec h1) as (h2' & H2 & Hp2 & _). rewrite H2 in E2. injection E2 as <-. rewrite Hp2. exact Hlen. }
  match goal with |- bind ?f _ <> _ => destruct f as [s1|] eqn:E; [|discriminate] end. exfalso. revert E.
  assert (Hf : exists f, heapFuel A B = Datatypes.S f) by (unfold heapFuel; eexists; rewrite ?Nat.add_1_r; reflexivity).
  destruct Hf as [f ->]. cbn [linLoop]. destruct (Nat.eqb_spec (length (hp h2)) 0); [contradiction|].
  destruct (get (hp h2) _) as [e|]; [|discriminate]. cbn [bind].
  assert (Hput : forall s, putL mul add A B e (0, lnew 0) <> Ok s).
  { intros s. unfold putL. destruct (get (values A) (erunr e)); [|discriminate]. cbn [bind]. destruct (get (values B) (eloc e)); discriminate. }
  destruct (putL mul add A B e (0, lnew 0)) as [s2|] eqn:Es; [|discriminate]. exfalso. exact (Hput _ eq_refl).
Qed.
End Fail.
