(** Data races of the drivers: exactly when some thread but the last has no rows. *)
From stdpp Require Import numbers.
From Verif Require Import MemModel BaseProofs ConcProofs WorkModel WorkProofs Assemble DriverModel DriverBase DriverProofs DriverStatements.
From Verif Require Import Base Spec.

(** The parallel region of a driver call has no data race, in any interleaving. *)
Definition driver1p_race_free {V} (alg : rowalg V) (iA iB iM iC nt : nat) (sc : scratch) (s : gmap nat (obj V)) : Prop :=
  exists A B M, s !! iA = Some (OMat A) /\ s !! iB = Some (OMat B) /\ s !! iM = Some (OMat M) /\
  exists flops cum total, prepare_always (ra_compl alg) A B M nt flops cum total /\
  region_race_free (region1p alg iA iB iM iC nt sc flops cum total) s (startMem (rows A) nt) (replicate nt (mkT1 0 0 [])).
Definition driver2p_race_free {V} (alg : rowalg V) (iA iB iM iR nt : nat) (sc : scratch) (s : gmap nat (obj V)) : Prop :=
  exists A B M, s !! iA = Some (OMat A) /\ s !! iB = Some (OMat B) /\ s !! iM = Some (OMat M) /\
  exists flops cum total, prepare_always (ra_compl alg) A B M nt flops cum total /\
  region_race_free (region2p alg iA iB iM iR nt sc flops cum total) (<[iR := OMat (mkCsr 0 0 0 [] [] [])]> s) (startMem (rows A) nt)
    (replicate nt (mkT2 0 0 (mkParams 0 0 0 0) (mkBuf 0 0 0 (fun _ => false)))).
(** Every thread but the last is given at least one row. *)
Definition all_busy {V} (compl : bool) (A B M : csr V) (nt : nat) : Prop :=
  exists flops cum total, prepare_always compl A B M nt flops cum total /\
  forall t, t + 1 < nt -> exists rb re, distributeWork total cum (rows A) nt t = Ok (rb, re) /\ rb < re.

Section Gen.
Context {L Val : Type} `{Countable L}.
Notation mem := (gmap L Val).
Notation event := (@event L Val).

Definition eloc (e : event) : L * bool := match e with ERd l | EAny l => (l, false) | EWr l _ => (l, true) end.

(** A thread running alone gets to each of its accesses. *)
Lemma solo_reach {R} m (p : prog L Val R) evs r m' : solo m p evs r m' -> forall e1 e e2 ps t, evs = e1 ++ e :: e2 -> ps !! t = Some p ->
  exists p1, rtc step (m, ps) (apply_evs e1 m, <[t := p1]> ps) /\ nextloc p1 = Some (eloc e).
Proof.
  induction 1 as [m r|m l k v evs r m' Hl Hs IH|m l k evs r m' [v Hv] Hs IH|m l v k evs r m' Hl Hs IH]; intros e1 e e2 ps t Heq Hp.
  - destruct e1; discriminate.
  - destruct e1 as [|x e1]; simpl in Heq; injection Heq as <- ->.
    + exists (Rd l k). simpl. rewrite list_insert_id by exact Hp. split; [constructor|reflexivity].
    + destruct (IH e1 e e2 (<[t := k v]> ps) t eq_refl) as (p1 & Hr & Hn); [apply list_lookup_insert, lookup_lt_is_Some; eauto|].
      exists p1. split; [|exact Hn]. rewrite list_insert_insert in Hr. simpl. eapply rtc_l; [|exact Hr]. econstructor; eassumption.
  - destruct e1 as [|x e1]; simpl in Heq; injection Heq as <- ->.
    + exists (Rd l k). simpl. rewrite list_insert_id by exact Hp. split; [constructor|reflexivity].
    + destruct (IH v e1 e e2 (<[t := k v]> ps) t eq_refl) as (p1 & Hr & Hn); [apply list_lookup_insert, lookup_lt_is_Some; eauto|].
      exists p1. split; [|exact Hn]. rewrite list_insert_insert in Hr. simpl. eapply rtc_l; [|exact Hr]. econstructor; eassumption.
  - destruct e1 as [|x e1]; simpl in Heq; injection Heq as <- ->.
    + exists (Wr l v k). simpl. rewrite list_insert_id by exact Hp. split; [constructor|reflexivity].
    + destruct (IH e1 e e2 (<[t := k]> ps) t eq_refl) as (p1 & Hr & Hn); [apply list_lookup_insert, lookup_lt_is_Some; eauto|].
      exists p1. split; [|exact Hn]. rewrite list_insert_insert in Hr. simpl. eapply rtc_l; [|exact Hr]. econstructor; eassumption.
Qed.

Lemma apply_evs_reads (evs : list event) (m : mem) : (forall l v, EWr l v ∉ evs) -> apply_evs evs m = m.
Proof.
  revert m. induction evs as [|e evs IH]; intros m Hn; simpl; [reflexivity|].
  assert (forall l v, EWr l v ∉ evs) by (intros l v Hin; apply (Hn l v); right; exact Hin).
  destruct e as [l|l|l v]; [apply IH; assumption|apply IH; assumption|]. exfalso. apply (Hn l v). left.
Qed.

Lemma solo_race {R} (m : mem) ps t u (p q : prog L Val R) ep rp mp eq rq mq a1 l a2 b1 v b2 :
  t <> u -> ps !! t = Some p -> ps !! u = Some q -> solo m p ep rp mp -> solo m q eq rq mq ->
  ep = a1 ++ EAny l :: a2 -> (forall l' v', EWr l' v' ∉ a1) -> eq = b1 ++ EWr l v :: b2 -> ~ race_free (m, ps).
Proof.
  intros Hne Hp Hq Sp Sq Ep Hn Eq Hrf.
  destruct (solo_reach _ _ _ _ _ Sp a1 _ a2 ps t Ep Hp) as (p1 & Hr1 & N1). rewrite apply_evs_reads in Hr1 by exact Hn.
  destruct (solo_reach _ _ _ _ _ Sq b1 _ b2 (<[t := p1]> ps) u Eq) as (q1 & Hr2 & N2); [rewrite list_lookup_insert_ne by exact Hne; exact Hq|].
  apply (Hrf (apply_evs b1 m, <[u := q1]> (<[t := p1]> ps))); [eapply rtc_transitive; eassumption|].
  exists t, u, p1, q1, l, false, true. cbn [snd]. split; [exact Hne|].
  split; [rewrite list_lookup_insert_ne by congruence; apply list_lookup_insert, lookup_lt_is_Some; eauto|].
  split; [apply list_lookup_insert; rewrite insert_length; apply lookup_lt_is_Some; eauto|]. auto.
Qed.

(** A region with a parallel phase, a master section and a parallel phase. *)
Lemma region3_race {E S} (f1 f3 : E -> nat -> S -> prog L Val S) (g : S -> E -> mem -> res (E * mem)) e m ss m1 s0 k e2 m2 :
  race_free (m, imap (f1 e) ss) -> always (m, imap (f1 e) ss) m1 (s0 :: k) -> g s0 e m1 = Ok (e2, m2) ->
  region_race_free [PPar f1; PMaster g; PPar f3] e m ss <-> race_free (m2, imap (f3 e2) (s0 :: k)).
Proof.
  intros Hrf (Hall & _ & Hout) Hg. split.
  - intros Hreg. inversion Hreg as [|? ? ? ? ? _ Hnext|]; subst. specialize (Hnext _ _ Hout).
    inversion Hnext as [| |? ? ? ? ? ? Hnext2]; subst. specialize (Hnext2 _ _ Hg). inversion Hnext2; subst. assumption.
  - intros H3. constructor; [exact Hrf|]. intros m1' ss1' Ho. apply Hall in Ho. injection Ho as -> ->.
    constructor. intros e2' m2' Hg'. rewrite Hg in Hg'. injection Hg' as <- <-. constructor; [exact H3|]. intros. constructor.
Qed.
End Gen.

Section Driver.
Context {V : Type} (alg : rowalg V) (A B M : csr V) (rspec : nat -> list (nat * V)).
Context (HC : compatible A B M) (Hok : ra_ok alg A B M rspec) (nt : nat) (Hnt : 1 <= nt) (Hr : 1 <= rows A).
Notation n := (rows A).
Notation pre := (pre rspec).

Section Cut.
Context (cum : list nat) (cut : nat -> nat) (C0 : cut 0 = 0) (Cn : cut nt = n) (Cm : forall t, t < nt -> cut t <= cut (t + 1)).

Lemma sro_reads t l v : t + 1 < nt -> ~ cut t < cut (t + 1) -> EWr l v ∉ ev_sro rspec n nt cut t.
Proof.
  intros Ht Hge. unfold ev_sro, ev_off, ev_rp, ev_last. replace (cut (t + 1) - cut t) with 0 by lia.
  destruct (Nat.eqb_spec t (nt - 1)); [lia|]. simpl. rewrite app_nil_r, elem_of_events.
  intros (i & _ & Hin). apply elem_of_list_singleton in Hin. discriminate.
Qed.
Lemma sro_conflict t : t + 1 < nt -> ~ cut t < cut (t + 1) ->
  exists u v b1 b2, u < nt /\ t <> u /\ ev_sro rspec n nt cut u = b1 ++ EWr (aRp, cut t) v :: b2.
Proof.
  intros Ht Hge. assert (Hn : cut t <= n) by (rewrite <- Cn; apply (cut_le cut nt); [exact Cm|lia]).
  destruct (rp_written rspec n nt cut Hnt C0 Cn Cm (cut t) Hn) as (u & Hu & Hin).
  apply elem_of_list_split in Hin as Hsp. destruct Hsp as (b1 & b2 & E).
  exists u, (VN (pre (cut t))), b1, b2. split; [exact Hu|]. split; [|exact E].
  intros ->. revert Hin. apply sro_reads; assumption.
Qed.
End Cut.

Lemma busy_cut cum total (cut : nat -> nat) : (forall t, t < nt -> distributeWork total cum n nt t = Ok (cut t, cut (t + 1))) ->
  (forall t, t + 1 < nt -> exists rb re, distributeWork total cum n nt t = Ok (rb, re) /\ rb < re) <->
  (forall t, t + 1 < nt -> cut t < cut (t + 1)).
Proof.
  intros Hd. split; intros H t Ht.
  - destruct (H t Ht) as (rb & re & Hdt & Hlt). rewrite Hd in Hdt by lia. injection Hdt as <- <-. exact Hlt.
  - exists (cut t), (cut (t + 1)). split; [apply Hd; lia|apply H, Ht].
Qed.

Lemma cut_dec (cut : nat -> nat) k : (forall t, t < k -> cut t < cut (t + 1)) \/ exists t, t < k /\ ~ cut t < cut (t + 1).
Proof.
  induction k as [|k [IH|(t & Ht & H)]]; [left; intros; lia| |right; exists t; split; [lia|exact H]].
  destruct (decide (cut k < cut (k + 1))) as [Hlt|Hge]; [|right; exists k; split; [lia|exact Hge]].
  left. intros t Ht. destruct (decide (t = k)) as [->|]; [exact Hlt|apply IH; lia].
Qed.


Lemma nonempty_iff (P : Prop) (cut : nat -> nat) : ((forall t, t + 1 < nt -> cut t < cut (t + 1)) -> P) ->
  (forall t, t + 1 < nt -> ~ cut t < cut (t + 1) -> ~ P) -> P <-> (forall t, t + 1 < nt -> cut t < cut (t + 1)).
Proof.
  intros H1 H2. split; [|exact H1]. intros HP. destruct (cut_dec cut (nt - 1)) as [H|(t & Ht & Hge)]; [intros t Ht; apply H; lia|].
  exfalso. apply (H2 t ltac:(lia) Hge HP).
Qed.

Lemma region1p_race iA iB iM iC sc (s : gmap nat (obj V)) cum cut :
  s !! iA = Some (OMat A) -> s !! iB = Some (OMat B) -> s !! iM = Some (OMat M) ->
  cut 0 = 0 -> cut nt = n -> (forall t, t < nt -> cut t <= cut (t + 1)) ->
  (forall t, t < nt -> distributeWork (DriverProofs.total alg A B M) cum n nt t = Ok (cut t, cut (t + 1))) ->
  region_race_free (region1p alg iA iB iM iC nt sc (flops alg A B M) cum (DriverProofs.total alg A B M)) s (startMem n nt) (replicate nt (mkT1 0 0 [])) <->
  (forall t, t + 1 < nt -> cut t < cut (t + 1)).
Proof.
  intros HA HB HM C0 Cn Cm Hd.
  destruct (phase1_1p alg A B M rspec HC Hok Hr nt Hnt cum cut C0 Cn Cm Hd iA iB iM sc s (replicate nt (mkT1 0 0 []))) as [(m1 & H1 & Hnv & Htn) Hrf1];
    [apply deref_mat; assumption..|apply replicate_length|].
  destruct (initC_ok rspec n nt cut Hnt C0 Cn Cm iA iB iC s m1 A (cols B) HA (colsOf_mat _ _ _ HB) eq_refl Hnv Htn) as (m2 & Hi & Hm2).
  set (e := <[iC := OFresh n (cols B) (pre n)]> s) in *.
  assert (He : e !! iC = Some (OFresh n (cols B) (pre n))) by apply lookup_insert.
  destruct (cons_states A Hr nt Hnt (state1 rspec cut)) as (s0 & k & Es). rewrite Es in H1.
  unfold region1p. rewrite (region3_race _ _ _ _ _ _ _ _ _ _ _ Hrf1 H1 Hi), <- Es.
  apply nonempty_iff.
  - apply (phase3_1p alg A B M rspec Hr nt Hnt cum cut C0 Cn Cm Hd iC (cols B) e m2 He Hm2).
  - intros t Ht Hge. destruct (sro_conflict cut C0 Cn Cm t Ht Hge) as (u & v & b1 & b2 & Hu & Hne & Eu).
    destruct (output1p_solo alg A B M rspec Hr nt Hnt cum cut C0 Cn Cm Hd iC (cols B) e m2 t He Hm2 ltac:(lia)) as (mt & St).
    destruct (output1p_solo alg A B M rspec Hr nt Hnt cum cut C0 Cn Cm Hd iC (cols B) e m2 u He Hm2 Hu) as (mu & Su).
    eapply (solo_race _ _ t u) with (a1 := ev_sro rspec n nt cut t ++ [ERd (aTn, t)]).
    + exact Hne.
    + rewrite list_lookup_imap, list_lookup_fmap, lookup_seq_lt by lia. reflexivity.
    + rewrite list_lookup_imap, list_lookup_fmap, lookup_seq_lt by lia. reflexivity.
    + exact St.
    + exact Su.
    + unfold ev3. rewrite <- app_assoc. simpl. unfold ev_pos at 1. destruct (Nat.ltb_spec (cut t) (cut (t + 1))); [lia|]. reflexivity.
    + intros l' v' Hin. apply elem_of_app in Hin as [Hin|Hin]; [revert Hin; apply (sro_reads cut); assumption|].
      apply elem_of_list_singleton in Hin. discriminate.
    + unfold ev3. rewrite Eu, <- app_assoc. reflexivity.
Qed.

Lemma region2p_race iA iB iM iR sc (s : gmap nat (obj V)) cum cut :
  s !! iA = Some (OMat A) -> s !! iB = Some (OMat B) -> s !! iM = Some (OMat M) -> iA <> iR -> iB <> iR -> iM <> iR ->
  cut 0 = 0 -> cut nt = n -> (forall t, t < nt -> cut t <= cut (t + 1)) ->
  (forall t, t < nt -> distributeWork (DriverProofs.total alg A B M) cum n nt t = Ok (cut t, cut (t + 1))) ->
  region_race_free (region2p alg iA iB iM iR nt sc (flops alg A B M) cum (DriverProofs.total alg A B M)) s (startMem n nt)
    (replicate nt (mkT2 0 0 (mkParams 0 0 0 0) (mkBuf 0 0 0 (fun _ => false)))) <->
  (forall t, t + 1 < nt -> cut t < cut (t + 1)).
Proof.
  intros HA HB HM NA NB NM C0 Cn Cm Hd.
  destruct (phase1_2p alg A B M rspec HC Hok Hr nt Hnt cum cut C0 Cn Cm Hd iA iB iM sc s (replicate nt (mkT2 0 0 (mkParams 0 0 0 0) (mkBuf 0 0 0 (fun _ => false)))))
    as [(m1 & rs & H1 & Hst & Hnv & Htn) Hrf1]; [apply deref_mat; assumption..|apply replicate_length|].
  destruct (initC_ok rspec n nt cut Hnt C0 Cn Cm iA iB iR s m1 A (cols B) HA (colsOf_mat _ _ _ HB) eq_refl Hnv Htn) as (m2 & Hi & Hm2).
  set (e := <[iR := OFresh n (cols B) (pre n)]> s) in *.
  assert (He : e !! iR = Some (OFresh n (cols B) (pre n))) by apply lookup_insert.
  assert (DA : deref e iA = Ok A) by (apply deref_mat; unfold e; rewrite lookup_insert_ne by congruence; assumption).
  assert (DB : deref e iB = Ok B) by (apply deref_mat; unfold e; rewrite lookup_insert_ne by congruence; assumption).
  assert (DM : deref e iM = Ok M) by (apply deref_mat; unfold e; rewrite lookup_insert_ne by congruence; assumption).
  destruct (cons_states A Hr nt Hnt rs) as (s0 & k & Es). rewrite Es in H1.
  unfold region2p. rewrite (region3_race _ _ _ _ _ _ _ _ _ _ _ Hrf1 H1 Hi), <- Es.
  apply nonempty_iff.
  - apply (phase3_2p alg A B M rspec Hok Hr nt Hnt cum cut C0 Cn Cm Hd iA iB iM iR (cols B) e m2 rs He DA DB DM Hm2 Hst).
  - intros t Ht Hge. destruct (sro_conflict cut C0 Cn Cm t Ht Hge) as (u & v & b1 & b2 & Hu & Hne & Eu).
    destruct (numeric2p_solo alg A B M rspec Hok Hr nt Hnt cum cut C0 Cn Cm Hd iA iB iM iR (cols B) e m2 t (rs t) He DA DB DM Hm2 ltac:(lia) (Hst t ltac:(lia))) as (mt & St).
    destruct (numeric2p_solo alg A B M rspec Hok Hr nt Hnt cum cut C0 Cn Cm Hd iA iB iM iR (cols B) e m2 u (rs u) He DA DB DM Hm2 Hu (Hst u Hu)) as (mu & Su).
    eapply (solo_race _ _ t u) with (a1 := ev_sro rspec n nt cut t).
    + exact Hne.
    + rewrite list_lookup_imap, list_lookup_fmap, lookup_seq_lt by lia. reflexivity.
    + rewrite list_lookup_imap, list_lookup_fmap, lookup_seq_lt by lia. reflexivity.
    + exact St.
    + exact Su.
    + unfold evn2. unfold ev_pos at 1. destruct (Nat.ltb_spec (cut t) (cut (t + 1))); [lia|]. reflexivity.
    + intros l' v'. apply (sro_reads cut); assumption.
    + unfold evn2. rewrite Eu, <- app_assoc. reflexivity.
Qed.

Lemma driver1p_race_iff iA iB iM iC sc (s : gmap nat (obj V)) :
  s !! iA = Some (OMat A) -> s !! iB = Some (OMat B) -> s !! iM = Some (OMat M) ->
  driver1p_race_free alg iA iB iM iC nt sc s <-> all_busy (ra_compl alg) A B M nt.
Proof.
  intros HA HB HM. destruct (prepare_ok alg A B M HC Hr nt Hnt) as (cum & Lc & Hp).
  destruct (distribute_ok (DriverProofs.total alg A B M) cum n nt ltac:(lia) Hnt) as (cut & C0 & Cn & Cm & Hd). split.
  - intros (A' & B' & M' & HA' & HB' & HM' & f & c & t & Hp' & Hrf). simplify_eq.
    destruct (prepare_unique _ _ _ _ _ _ _ _ _ _ _ Hp Hp') as (<- & <- & <-).
    exists (flops alg A B M), cum, (DriverProofs.total alg A B M). split; [exact Hp|]. apply (busy_cut _ _ _ Hd).
    apply (region1p_race iA iB iM iC sc s cum cut HA HB HM C0 Cn Cm Hd), Hrf.
  - intros (f & c & t & Hp' & Hb). destruct (prepare_unique _ _ _ _ _ _ _ _ _ _ _ Hp Hp') as (<- & <- & <-).
    exists A, B, M. do 3 (split; [assumption|]). exists (flops alg A B M), cum, (DriverProofs.total alg A B M). split; [exact Hp|].
    apply (region1p_race iA iB iM iC sc s cum cut HA HB HM C0 Cn Cm Hd). apply (busy_cut _ _ _ Hd), Hb.
Qed.
Lemma driver2p_race_iff iA iB iM iR sc (s : gmap nat (obj V)) :
  s !! iA = Some (OMat A) -> s !! iB = Some (OMat B) -> s !! iM = Some (OMat M) -> s !! iR = None ->
  driver2p_race_free alg iA iB iM iR nt sc s <-> all_busy (ra_compl alg) A B M nt.
Proof.
  intros HA HB HM HR. destruct (prepare_ok alg A B M HC Hr nt Hnt) as (cum & Lc & Hp).
  destruct (distribute_ok (DriverProofs.total alg A B M) cum n nt ltac:(lia) Hnt) as (cut & C0 & Cn & Cm & Hd).
  set (s1 := <[iR := OMat (mkCsr 0 0 0 [] [] [])]> s).
  assert (HA1 : s1 !! iA = Some (OMat A)) by (unfold s1; rewrite lookup_insert_ne by congruence; exact HA).
  assert (HB1 : s1 !! iB = Some (OMat B)) by (unfold s1; rewrite lookup_insert_ne by congruence; exact HB).
  assert (HM1 : s1 !! iM = Some (OMat M)) by (unfold s1; rewrite lookup_insert_ne by congruence; exact HM).
  assert (NA : iA <> iR) by congruence. assert (NB : iB <> iR) by congruence. assert (NM : iM <> iR) by congruence.
  split.
  - intros (A' & B' & M' & HA' & HB' & HM' & f & c & t & Hp' & Hrf). simplify_eq.
    destruct (prepare_unique _ _ _ _ _ _ _ _ _ _ _ Hp Hp') as (<- & <- & <-).
    exists (flops alg A B M), cum, (DriverProofs.total alg A B M). split; [exact Hp|]. apply (busy_cut _ _ _ Hd).
    apply (region2p_race iA iB iM iR sc s1 cum cut HA1 HB1 HM1 NA NB NM C0 Cn Cm Hd), Hrf.
  - intros (f & c & t & Hp' & Hb). destruct (prepare_unique _ _ _ _ _ _ _ _ _ _ _ Hp Hp') as (<- & <- & <-).
    exists A, B, M. do 3 (split; [assumption|]). exists (flops alg A B M), cum, (DriverProofs.total alg A B M). split; [exact Hp|].
    apply (region2p_race iA iB iM iR sc s1 cum cut HA1 HB1 HM1 NA NB NM C0 Cn Cm Hd). apply (busy_cut _ _ _ Hd), Hb.
Qed.

(** More than one thread more than rows: always a thread without rows. *)
Lemma too_many_threads : rows A + 1 < nt -> ~ all_busy (ra_compl alg) A B M nt.
Proof.
  intros Hlt (f & c & t & Hp' & Hb). destruct (prepare_ok alg A B M HC Hr nt Hnt) as (cum & Lc & Hp).
  destruct (prepare_unique _ _ _ _ _ _ _ _ _ _ _ Hp Hp') as (<- & <- & <-).
  destruct (distribute_ok (DriverProofs.total alg A B M) cum n nt ltac:(lia) Hnt) as (cut & C0 & Cn & Cm & Hd).
  rewrite (busy_cut _ _ _ Hd) in Hb.
  assert (Hge : forall k, k + 1 <= nt -> k <= cut k).
  { induction k as [|k IH]; [lia|]. intros Hk. specialize (IH ltac:(lia)). specialize (Hb k ltac:(lia)). replace (S k) with (k + 1) by lia. lia. }
  specialize (Hge (nt - 1) ltac:(lia)). pose proof (Cm (nt - 1) ltac:(lia)) as H. replace (nt - 1 + 1) with nt in H by lia. lia.
Qed.
End Driver.
