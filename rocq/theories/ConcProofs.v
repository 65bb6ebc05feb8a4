(** Interleaving theorem: threads whose solo runs do not interfere always end with the results of the
    solo runs. *)
From Verif Require Import Conc BaseProofs.

Lemma mjoin_app {A} (l1 l2 : list (list A)) : mjoin (l1 ++ l2) = mjoin l1 ++ mjoin l2.
Proof. induction l1 as [|x l1 IH]; [reflexivity|]. rewrite <- app_comm_cons, !mjoin_cons, IH, app_assoc. reflexivity. Qed.

Section Conc.
Context {L Val : Type} `{Countable L}.
Notation mem := (gmap L Val).
Notation prog := (prog L Val).
Notation phase := (phase L Val).

(** Events of a solo run.  [ERd]: a read whose value matters; [EAny]: a read after which the thread
    does the same whatever the value was. *)
Inductive event := ERd (l : L) | EAny (l : L) | EWr (l : L) (v : Val).

Inductive solo {R} : mem -> prog R -> list event -> R -> mem -> Prop :=
| solo_ret m r : solo m (Ret r) [] r m
| solo_rd m l k v evs r m' : m !! l = Some v -> solo m (k v) evs r m' -> solo m (Rd l k) (ERd l :: evs) r m'
| solo_any m l k evs r m' : is_Some (m !! l) -> (forall v, solo m (k v) evs r m') -> solo m (Rd l k) (EAny l :: evs) r m'
| solo_wr m l v k evs r m' : is_Some (m !! l) -> solo (<[l := v]> m) k evs r m' -> solo m (Wr l v k) (EWr l v :: evs) r m'.

Definition wloc (e : event) : option (L * Val) := match e with EWr l v => Some (l, v) | _ => None end.

Fixpoint apply_evs (evs : list event) (m : mem) : mem :=
  match evs with
  | [] => m
  | EWr l v :: evs' => apply_evs evs' (<[l := v]> m)
  | _ :: evs' => apply_evs evs' m
  end.

Lemma apply_evs_app e1 e2 m : apply_evs (e1 ++ e2) m = apply_evs e2 (apply_evs e1 m).
Proof. revert m. induction e1 as [|[] e1 IH]; intros m; simpl; auto. Qed.

Lemma solo_mem {R} m (p : prog R) evs r m' : solo m p evs r m' -> m' = apply_evs evs m.
Proof.
  induction 1 as [|? ? ? ? ? ? ? ? ? IH|m l k evs r m' Hs Hk IH|? ? ? ? ? ? ? ? ? IH]; simpl; auto.
  destruct Hs as [v _]. apply (IH v).
Qed.

Lemma apply_evs_dom evs m l : (forall l' v, EWr l' v ∈ evs -> is_Some (m !! l')) ->
  is_Some (apply_evs evs m !! l) <-> is_Some (m !! l).
Proof.
  revert m. induction evs as [|e evs IH]; intros m Hw; simpl; [reflexivity|].
  destruct e as [l'|l'|l' v]; try (apply IH; intros; eapply Hw; right; eauto).
  rewrite IH.
  - destruct (decide (l = l')) as [->|Hne]; [|rewrite lookup_insert_ne by congruence; reflexivity].
    rewrite lookup_insert. split; [|eauto]. intros _. apply (Hw l' v). left.
  - intros l2 v2 Hin. destruct (decide (l2 = l')) as [->|Hne]; [rewrite lookup_insert; eauto|].
    rewrite lookup_insert_ne by congruence. apply (Hw l2 v2). right. exact Hin.
Qed.

Lemma apply_evs_notin evs m l : (forall v, EWr l v ∉ evs) -> apply_evs evs m !! l = m !! l.
Proof.
  revert m. induction evs as [|e evs IH]; intros m Hn; simpl; [reflexivity|].
  assert (forall v, EWr l v ∉ evs) by (intros v Hin; apply (Hn v); right; exact Hin).
  destruct e as [l'|l'|l' v]; [auto|auto|]. rewrite IH by assumption.
  apply lookup_insert_ne. intros ->. apply (Hn v). left.
Qed.

Lemma writes_dec (l : L) (evs : list event) : (exists v, EWr l v ∈ evs) \/ (forall v, EWr l v ∉ evs).
Proof.
  induction evs as [|e evs IH]; [right; intros v1 Hin; inversion Hin|].
  destruct IH as [[v1 H1]|IH]; [left; exists v1; right; exact H1|].
  destruct e as [l'|l'|l' v'].
  1,2: right; intros v1 H1; apply elem_of_cons in H1 as [H1|H1]; [discriminate|apply (IH v1 H1)].
  destruct (decide (l' = l)) as [->|Hne].
  - left. exists v'. left.
  - right. intros v1 H1; apply elem_of_cons in H1 as [H1|H1]; [congruence|apply (IH v1 H1)].
Qed.

Lemma apply_evs_indep (evs : list event) m m' l : (exists v, EWr l v ∈ evs) -> apply_evs evs m !! l = apply_evs evs m' !! l.
Proof.
  revert m m'. induction evs as [|e evs IH]; intros m m' [v0 Hin]; [inversion Hin|]; simpl.
  destruct (writes_dec l evs) as [Hex|Hno]; [destruct e; apply IH; exact Hex|].
  apply elem_of_cons in Hin as [<-|Hin]; [|exfalso; apply (Hno _ Hin)].
  rewrite !apply_evs_notin by exact Hno. rewrite !lookup_insert. reflexivity.
Qed.

Lemma apply_evs_all (evs : list event) m l v : (exists v0, EWr l v0 ∈ evs) -> (forall v0, EWr l v0 ∈ evs -> v0 = v) ->
  apply_evs evs m !! l = Some v.
Proof.
  revert m. induction evs as [|e evs IH]; intros m [v0 Hin] Hall; simpl; [inversion Hin|].
  assert (Hall' : forall v1, EWr l v1 ∈ evs -> v1 = v) by (intros; apply Hall; right; assumption).
  destruct (writes_dec l evs) as [Hex|Hno].
  - destruct e; apply IH; auto.
  - apply elem_of_cons in Hin as [<-|Hin]; [|exfalso; apply (Hno _ Hin)].
    rewrite apply_evs_notin by exact Hno. rewrite lookup_insert. f_equal. apply Hall. left.
Qed.

(** No interference: a location written by one thread is not read (with effect) by another unless
    that one wrote it before, and if written by another, then with the same value. *)
Definition compat (evss : list (list event)) : Prop :=
  forall t u et eu l v, t <> u -> evss !! t = Some et -> evss !! u = Some eu -> EWr l v ∈ et ->
    (forall pre post, eu = pre ++ ERd l :: post -> exists w, EWr l w ∈ pre) /\ (forall v', EWr l v' ∈ eu -> v' = v).

(** No conflicting accesses at all. *)
Definition strict (evss : list (list event)) : Prop :=
  forall t u et eu l v, t <> u -> evss !! t = Some et -> evss !! u = Some eu -> EWr l v ∈ et ->
    ERd l ∉ eu /\ EAny l ∉ eu /\ (forall v', EWr l v' ∉ eu).

Lemma strict_compat evss : strict evss -> compat evss.
Proof.
  intros Hs t u et eu l v Hne Ht Hu Hw. destruct (Hs t u et eu l v Hne Ht Hu Hw) as (H1 & H2 & H3).
  split; [|intros v' Hv; exfalso; apply (H3 v' Hv)].
  intros pre post ->. exfalso. apply H1, elem_of_app. right. left.
Qed.

(** Final memory: all threads' events one after the other. *)
Definition final_mem (evss : list (list event)) (m : mem) : mem := apply_evs (mjoin evss) m.

Lemma final_mem_notin evss m l : (forall t et v, evss !! t = Some et -> EWr l v ∉ et) ->
  final_mem evss m !! l = m !! l.
Proof.
  intros Hn. apply apply_evs_notin. intros v Hin. apply elem_of_list_join in Hin as (et & Hin & Het).
  apply elem_of_list_lookup in Het as [t Ht]. apply (Hn t et v Ht Hin).
Qed.

Lemma final_mem_in evss m l t et v : compat evss -> evss !! t = Some et -> EWr l v ∈ et ->
  final_mem evss m !! l = apply_evs et m !! l.
Proof.
  intros Hc Ht Hin. unfold final_mem.
  rewrite <- (take_drop_middle evss t et Ht), mjoin_app, mjoin_cons, !apply_evs_app.
  destruct (writes_dec l (mjoin (drop (S t) evss))) as [Hex|Hno].
  - assert (Hv : forall w, EWr l w ∈ mjoin (drop (S t) evss) -> w = v).
    { intros w Hw. apply elem_of_list_join in Hw as (eu & Hw & Heu).
      apply elem_of_list_lookup in Heu as [u Hu]. rewrite lookup_drop in Hu.
      destruct (Hc t (S t + u) et eu l v) as [_ Hx]; [lia|exact Ht|exact Hu|exact Hin|]. apply Hx, Hw. }
    rewrite (apply_evs_all _ _ _ v Hex Hv). symmetry. apply apply_evs_all; [eauto|].
    intros w Hw. destruct Hex as [v1 Hex]. assert (v1 = v) as -> by (apply Hv; exact Hex).
    apply elem_of_list_join in Hex as (eu & Hex & Heu).
    apply elem_of_list_lookup in Heu as [u Hu]. rewrite lookup_drop in Hu.
    destruct (Hc (S t + u) t eu et l v) as [_ Hx]; [lia|exact Hu|exact Ht|exact Hex|]. apply Hx, Hw.
  - rewrite apply_evs_notin by exact Hno. apply apply_evs_indep. eauto.
Qed.

Section Phase.
Context {R : Type}.
Variables (m0 : mem) (evss : list (list event)) (rs : list R).
Hypothesis Hcompat : compat evss.

(** Invariant: thread [t] has done [pre] and has [rem] to do, seen from its own memory view. *)
Record cinv (m : mem) (ps : list (prog R)) (pres rems : list (list event)) : Prop := mkCinv {
  ci_len : length ps = length evss /\ length pres = length evss /\ length rems = length evss /\ length rs = length evss;
  ci_split : forall t pre rem, pres !! t = Some pre -> rems !! t = Some rem -> evss !! t = Some (pre ++ rem);
  ci_solo : forall t p pre rem r, ps !! t = Some p -> pres !! t = Some pre -> rems !! t = Some rem ->
    rs !! t = Some r -> exists mf, solo (apply_evs pre m0) p rem r mf;
  ci_dom : forall l, is_Some (m !! l) <-> is_Some (m0 !! l);
  ci_vdom : forall t pre l, pres !! t = Some pre -> is_Some (apply_evs pre m0 !! l) <-> is_Some (m0 !! l);
  ci_own : forall t pre l, pres !! t = Some pre -> (exists v, EWr l v ∈ pre) -> m !! l = apply_evs pre m0 !! l;
  ci_none : forall l, (forall t pre v, pres !! t = Some pre -> EWr l v ∉ pre) -> m !! l = m0 !! l }.

Lemma cinv_lookups m ps pres rems t p : cinv m ps pres rems -> ps !! t = Some p ->
  exists pre rem r mf, pres !! t = Some pre /\ rems !! t = Some rem /\ rs !! t = Some r /\
    evss !! t = Some (pre ++ rem) /\ solo (apply_evs pre m0) p rem r mf.
Proof.
  intros Hi Ht. pose proof (ci_len _ _ _ _ Hi) as (L1 & L2 & L3 & L4).
  pose proof (lookup_lt_Some _ _ _ Ht) as Hlt.
  destruct (lookup_lt_is_Some_2 pres t) as [pre Hpre]; [lia|].
  destruct (lookup_lt_is_Some_2 rems t) as [rem Hrem]; [lia|].
  destruct (lookup_lt_is_Some_2 rs t) as [r Hr]; [lia|].
  destruct (ci_solo _ _ _ _ Hi _ _ _ _ _ Ht Hpre Hrem Hr) as [mf Hs].
  exists pre, rem, r, mf. repeat split; auto. apply (ci_split _ _ _ _ Hi); auto.
Qed.

(** A location no other thread writes is seen correctly. *)
Lemma ci_view m ps pres rems t pre rem l : cinv m ps pres rems -> pres !! t = Some pre -> rems !! t = Some rem ->
  head rem = Some (ERd l) -> m !! l = apply_evs pre m0 !! l.
Proof.
  intros Hi Hpre Hrem Hhd. destruct rem as [|e rem]; [discriminate|]. injection Hhd as ->.
  destruct (writes_dec l pre) as [He|He]; [apply (ci_own _ _ _ _ Hi t); auto|].
  rewrite apply_evs_notin by exact He. apply (ci_none _ _ _ _ Hi).
  intros u preu v Hu Hinu. destruct (decide (u = t)) as [->|Hne].
  - rewrite Hpre in Hu. injection Hu as <-. apply (He v Hinu).
  - pose proof (ci_len _ _ _ _ Hi) as (L1 & L2 & L3 & L4).
    pose proof (lookup_lt_Some _ _ _ Hu) as Hlt.
    destruct (lookup_lt_is_Some_2 rems u) as [remu Hremu]; [lia|].
    destruct (Hcompat u t (preu ++ remu) (pre ++ ERd l :: rem) l v Hne) as [Hx _].
    + apply (ci_split _ _ _ _ Hi); auto.
    + apply (ci_split _ _ _ _ Hi); auto.
    + apply elem_of_app; auto.
    + destruct (Hx pre rem eq_refl) as [w Hw]. apply (He w Hw).
Qed.

(** Read steps of both kinds only move the thread. *)
Lemma cinv_read m ps pres rems t k l e pre rem r v : cinv m ps pres rems ->
  ps !! t = Some (Rd l k) -> pres !! t = Some pre -> rems !! t = Some (e :: rem) -> rs !! t = Some r ->
  (e = ERd l \/ e = EAny l) -> (exists mf, solo (apply_evs pre m0) (k v) rem r mf) ->
  cinv m (<[t := k v]> ps) (<[t := pre ++ [e]]> pres) (<[t := rem]> rems).
Proof.
  intros Hi Ht Hpre Hrem Hr He Hs. destruct Hi as [(L1 & L2 & L3 & L4) Hsp Hso Hd Hvd Ho Hn].
  pose proof (lookup_lt_Some _ _ _ Ht) as Hlt.
  assert (Happ : apply_evs (pre ++ [e]) m0 = apply_evs pre m0) by (rewrite apply_evs_app; destruct He as [-> | ->]; reflexivity).
  assert (Hmem : forall l' v', EWr l' v' ∈ pre ++ [e] <-> EWr l' v' ∈ pre).
  { intros l' v'. rewrite elem_of_app, elem_of_list_singleton. split; [|auto].
    intros [Hx|Hx]; [exact Hx|]. destruct He as [-> | ->]; discriminate. }
  split.
  - rewrite !insert_length. auto.
  - intros u p1 r1 H1 H2. destruct (decide (u = t)) as [->|Hne].
    + rewrite list_lookup_insert in H1 by lia. rewrite list_lookup_insert in H2 by lia.
      injection H1 as <-. injection H2 as <-. rewrite <- app_assoc. apply (Hsp t); auto.
    + rewrite list_lookup_insert_ne in H1 by congruence. rewrite list_lookup_insert_ne in H2 by congruence. eauto.
  - intros u p p1 r1 r2 H0 H1 H2 H3. destruct (decide (u = t)) as [->|Hne].
    + rewrite list_lookup_insert in H0 by lia. rewrite list_lookup_insert in H1 by lia. rewrite list_lookup_insert in H2 by lia.
      injection H0 as <-. injection H1 as <-. injection H2 as <-. rewrite Hr in H3. injection H3 as <-.
      rewrite Happ. exact Hs.
    + rewrite list_lookup_insert_ne in H0 by congruence. rewrite list_lookup_insert_ne in H1 by congruence. rewrite list_lookup_insert_ne in H2 by congruence. eauto.
  - exact Hd.
  - intros u p1 l' H1. destruct (decide (u = t)) as [->|Hne].
    + rewrite list_lookup_insert in H1 by lia. injection H1 as <-. rewrite Happ. eauto.
    + rewrite list_lookup_insert_ne in H1 by congruence. eauto.
  - intros u p1 l' H1 [v' Hv]. destruct (decide (u = t)) as [->|Hne].
    + rewrite list_lookup_insert in H1 by lia. injection H1 as <-. rewrite Happ. apply (Ho t); [exact Hpre|].
      exists v'. apply Hmem, Hv.
    + rewrite list_lookup_insert_ne in H1 by congruence. eauto.
  - intros l' Hall. apply Hn. intros u p1 v' H1 Hin. destruct (decide (u = t)) as [->|Hne].
    + rewrite Hpre in H1. injection H1 as <-. apply (Hall t (pre ++ [e]) v'); [rewrite list_lookup_insert by lia; reflexivity|].
      apply Hmem, Hin.
    + apply (Hall u p1 v'); [rewrite list_lookup_insert_ne by congruence; exact H1|exact Hin].
Qed.

Lemma cinv_write m ps pres rems t k l v pre rem r : cinv m ps pres rems ->
  ps !! t = Some (Wr l v k) -> pres !! t = Some pre -> rems !! t = Some (EWr l v :: rem) -> rs !! t = Some r ->
  is_Some (m !! l) ->
  (exists mf, solo (apply_evs (pre ++ [EWr l v]) m0) k rem r mf) ->
  cinv (<[l := v]> m) (<[t := k]> ps) (<[t := pre ++ [EWr l v]]> pres) (<[t := rem]> rems).
Proof.
  intros Hi Ht Hpre Hrem Hr Hl Hs.
  pose proof (ci_split _ _ _ _ Hi t _ _ Hpre Hrem) as Hevt.
  destruct Hi as [(L1 & L2 & L3 & L4) Hsp Hso Hd Hvd Ho Hn].
  pose proof (lookup_lt_Some _ _ _ Ht) as Hlt.
  assert (Happ : apply_evs (pre ++ [EWr l v]) m0 = <[l := v]> (apply_evs pre m0)) by (rewrite apply_evs_app; reflexivity).
  split.
  - rewrite !insert_length. auto.
  - intros u p1 r1 H1 H2. destruct (decide (u = t)) as [->|Hne].
    + rewrite list_lookup_insert in H1 by lia. rewrite list_lookup_insert in H2 by lia.
      injection H1 as <-. injection H2 as <-. rewrite <- app_assoc. apply (Hsp t); auto.
    + rewrite list_lookup_insert_ne in H1 by congruence. rewrite list_lookup_insert_ne in H2 by congruence. eauto.
  - intros u p p1 r1 r2 H0 H1 H2 H3. destruct (decide (u = t)) as [->|Hne].
    + rewrite list_lookup_insert in H0 by lia. rewrite list_lookup_insert in H1 by lia. rewrite list_lookup_insert in H2 by lia.
      injection H0 as <-. injection H1 as <-. injection H2 as <-. rewrite Hr in H3. injection H3 as <-. exact Hs.
    + rewrite list_lookup_insert_ne in H0 by congruence. rewrite list_lookup_insert_ne in H1 by congruence. rewrite list_lookup_insert_ne in H2 by congruence. eauto.
  - intros l'. destruct (decide (l' = l)) as [->|Hne].
    + rewrite lookup_insert. split; [intros _; apply Hd, Hl|eauto].
    + rewrite lookup_insert_ne by congruence. apply Hd.
  - intros u p1 l' H1. destruct (decide (u = t)) as [->|Hne].
    + rewrite list_lookup_insert in H1 by lia. injection H1 as <-. rewrite Happ.
      destruct (decide (l' = l)) as [->|Hne].
      * rewrite lookup_insert. split; [intros _; apply Hd, Hl|eauto].
      * rewrite lookup_insert_ne by congruence. eauto.
    + rewrite list_lookup_insert_ne in H1 by congruence. eauto.
  - intros u p1 l' H1 [v' Hv]. destruct (decide (u = t)) as [->|Hne].
    + rewrite list_lookup_insert in H1 by lia. injection H1 as <-. rewrite Happ.
      destruct (decide (l' = l)) as [->|Hne]; [rewrite !lookup_insert; reflexivity|].
      rewrite !lookup_insert_ne by congruence. apply (Ho t); [exact Hpre|]. exists v'.
      apply elem_of_app in Hv as [Hv|Hv]; [exact Hv|]. apply elem_of_list_singleton in Hv. congruence.
    + rewrite list_lookup_insert_ne in H1 by congruence.
      destruct (decide (l' = l)) as [->|Hne']; [|rewrite lookup_insert_ne by congruence; eauto].
      rewrite lookup_insert. symmetry. apply apply_evs_all; [eauto|].
      intros w Hw. pose proof (lookup_lt_Some _ _ _ H1) as Hltu.
      destruct (lookup_lt_is_Some_2 rems u) as [remu Hremu]; [lia|].
      destruct (Hcompat t u (pre ++ EWr l v :: rem) (p1 ++ remu) l v) as [_ Hx].
      * congruence.
      * exact Hevt.
      * apply (Hsp u); auto.
      * apply elem_of_app. right. left.
      * apply Hx, elem_of_app. auto.
  - intros l' Hall. assert (Hne : l' <> l).
    { intros ->. apply (Hall t (pre ++ [EWr l v]) v); [rewrite list_lookup_insert by lia; reflexivity|].
      apply elem_of_app. right. left. }
    rewrite lookup_insert_ne by congruence. apply Hn. intros u p1 v' H1 Hin. destruct (decide (u = t)) as [->|Hne'].
    + rewrite Hpre in H1. injection H1 as <-. apply (Hall t (pre ++ [EWr l v]) v'); [rewrite list_lookup_insert by lia; reflexivity|].
      apply elem_of_app. auto.
    + apply (Hall u p1 v'); [rewrite list_lookup_insert_ne by congruence; exact H1|exact Hin].
Qed.

Definition todo (rems : list (list event)) : nat := sum_list (length <$> rems).

Lemma todo_insert rems t e rem : rems !! t = Some (e :: rem) -> todo rems = S (todo (<[t := rem]> rems)).
Proof.
  unfold todo. revert t. induction rems as [|x rems IH]; intros [|t] Ht; simpl in *; try discriminate.
  - injection Ht as ->. simpl. lia.
  - specialize (IH t Ht). unfold fmap in IH. lia.
Qed.

Lemma cinv_step m ps pres rems c' : cinv m ps pres rems -> step (m, ps) c' ->
  exists pres' rems', cinv c'.1 c'.2 pres' rems' /\ todo rems = S (todo rems').
Proof.
  intros Hi Hst. inversion Hst as [m' ps' t l k v Ht Hl|m' ps' t l v k Ht Hl]; subst; simpl.
  - destruct (cinv_lookups _ _ _ _ _ _ Hi Ht) as (pre & rem & r & mf & Hpre & Hrem & Hr & He & Hs).
    inversion Hs as [|? ? ? w evs ? ? Hw Hs'|? ? ? evs ? ? Hw Hs'|]; subst.
    + exists (<[t := pre ++ [ERd l]]> pres), (<[t := evs]> rems). split; [|eapply todo_insert; eauto].
      eapply cinv_read; eauto. assert (v = w) as ->; [|eauto].
      pose proof (ci_view _ _ _ _ t pre (ERd l :: evs) l Hi Hpre Hrem) as Hv.
      rewrite Hv in Hl by reflexivity. congruence.
    + exists (<[t := pre ++ [EAny l]]> pres), (<[t := evs]> rems). split; [|eapply todo_insert; eauto].
      eapply cinv_read; eauto.
  - destruct (cinv_lookups _ _ _ _ _ _ Hi Ht) as (pre & rem & r & mf & Hpre & Hrem & Hr & He & Hs).
    inversion Hs as [| | |? ? ? ? evs ? ? Hw Hs']; subst.
    exists (<[t := pre ++ [EWr l v]]> pres), (<[t := evs]> rems). split; [|eapply todo_insert; eauto].
    eapply cinv_write; eauto. exists mf. rewrite apply_evs_app. exact Hs'.
Qed.

Lemma cinv_no_fault m ps pres rems t p f : cinv m ps pres rems -> ps !! t = Some p -> thread_fault m p f -> False.
Proof.
  intros Hi Ht Hf. destruct (cinv_lookups _ _ _ _ _ _ Hi Ht) as (pre & rem & r & mf & Hpre & Hrem & Hr & He & Hs).
  destruct p as [r'|l k|l v k|f']; simpl in Hf; auto.
  - destruct Hf as [Hf _]. assert (is_Some (m !! l)) as [x Hx]; [|congruence].
    apply (ci_dom _ _ _ _ Hi), (ci_vdom _ _ _ _ Hi t pre l Hpre). inversion Hs; subst; eauto.
  - destruct Hf as [Hf _]. assert (is_Some (m !! l)) as [x Hx]; [|congruence].
    apply (ci_dom _ _ _ _ Hi), (ci_vdom _ _ _ _ Hi t pre l Hpre). inversion Hs; subst; eauto.
  - inversion Hs.
Qed.

Lemma cinv_rets m rs' pres rems : cinv m (Ret <$> rs') pres rems -> m = final_mem evss m0 /\ rs' = rs.
Proof.
  intros Hi. pose proof (ci_len _ _ _ _ Hi) as (L1 & L2 & L3 & L4). rewrite fmap_length in L1.
  assert (Hrs : rs' = rs).
  { apply list_eq_same_length with (length evss); [congruence|congruence|]. intros i x y Hil Hx Hy.
    destruct (cinv_lookups m (Ret <$> rs') pres rems i (Ret x) Hi) as (pre & rem & r & mf & Hpre & Hrem & Hr & He & Hs).
    { rewrite list_lookup_fmap, Hx. reflexivity. }
    inversion Hs; subst. congruence. }
  split; [|exact Hrs].
  assert (Hpres : pres = evss).
  { apply list_eq_same_length with (length evss); [congruence|congruence|]. intros i x y Hil Hx Hy.
    destruct (lookup_lt_is_Some_2 rs' i) as [r0 Hr0]; [lia|].
    destruct (cinv_lookups m (Ret <$> rs') pres rems i (Ret r0) Hi) as (pre & rem & r & mf & Hpre & Hrem & Hr & He & Hs).
    { rewrite list_lookup_fmap, Hr0. reflexivity. }
    inversion Hs; subst. rewrite app_nil_r in He. congruence. }
  subst pres. apply map_eq. intros l.
  destruct (writes_dec l (mjoin evss)) as [[v Hv]|Hno].
  - apply elem_of_list_join in Hv as (et & Hv & Het). apply elem_of_list_lookup in Het as [t Ht].
    rewrite (final_mem_in evss m0 l t et v Hcompat Ht Hv). apply (ci_own _ _ _ _ Hi t); eauto.
  - assert (Hno' : forall t et v, evss !! t = Some et -> EWr l v ∉ et).
    { intros t et v Ht Hin. apply (Hno v). apply elem_of_list_join. exists et. split; [exact Hin|].
      eapply elem_of_list_lookup_2; eauto. }
    rewrite final_mem_notin by exact Hno'. apply (ci_none _ _ _ _ Hi). exact Hno'.
Qed.

Lemma all_ret (ps : list (prog R)) : (exists rs', ps = Ret <$> rs') \/ (exists t p, ps !! t = Some p /\ forall r, p <> Ret r).
Proof.
  induction ps as [|p ps IH]; [left; exists []; reflexivity|].
  destruct p as [r| | |]; try (right; exists 0; eexists; split; [reflexivity|]; intros; discriminate).
  destruct IH as [[rs' ->]|(t & p & Ht & Hp)]; [left; exists (r :: rs'); reflexivity|].
  right. exists (S t), p. auto.
Qed.

Lemma cinv_progress m ps pres rems : cinv m ps pres rems ->
  (exists rs', ps = Ret <$> rs') \/ exists c', step (m, ps) c'.
Proof.
  intros Hi. destruct (all_ret ps) as [Hl|(t & p & Ht & Hp)]; [left; exact Hl|]. right.
  destruct p as [r|l k|l v k|f].
  - exfalso. apply (Hp r eq_refl).
  - destruct (m !! l) as [v|] eqn:Hl; [|exfalso; eapply (cinv_no_fault _ _ _ _ t); eauto; simpl; eauto].
    eexists. eapply step_rd; eauto.
  - destruct (m !! l) as [w|] eqn:Hl; [|exfalso; eapply (cinv_no_fault _ _ _ _ t); eauto; simpl; eauto].
    eexists. eapply step_wr; eauto.
  - exfalso. eapply (cinv_no_fault _ _ _ _ t); eauto. simpl. reflexivity.
Qed.

Lemma cinv_rtc m ps pres rems c' : cinv m ps pres rems -> rtc step (m, ps) c' ->
  exists pres' rems', cinv c'.1 c'.2 pres' rems'.
Proof.
  intros Hi Hrtc. remember (m, ps) as c eqn:Hc.
  assert (Hc' : exists pr re, cinv c.1 c.2 pr re) by (subst; eauto). clear Hi Hc.
  induction Hrtc as [c|c c1 c2 Hst _ IH]; [exact Hc'|]. apply IH.
  destruct Hc' as (pr & re & Hi). destruct c as [m1 ps1]. destruct (cinv_step _ _ _ _ _ Hi Hst) as (pr' & re' & Hi' & _). eauto.
Qed.

Lemma cinv_bound n c c' pres rems : cinv c.1 c.2 pres rems -> nsteps step n c c' -> n <= todo rems.
Proof.
  intros Hi Hn. revert pres rems Hi. induction Hn as [c|n c c1 c2 Hst _ IH]; intros pres rems Hi; [lia|].
  destruct c as [m1 ps1]. destruct (cinv_step _ _ _ _ _ Hi Hst) as (pr' & re' & Hi' & Ht).
  specialize (IH _ _ Hi'). lia.
Qed.

Lemma cinv_finish n m ps pres rems : todo rems <= n -> cinv m ps pres rems ->
  rtc step (m, ps) (final_mem evss m0, Ret <$> rs).
Proof.
  revert m ps pres rems. induction n as [|n IH]; intros m ps pres rems Hn Hi.
  all: destruct (cinv_progress _ _ _ _ Hi) as [[rs' ->]|[[m1 ps1] Hst]].
  1,3: destruct (cinv_rets _ _ _ _ Hi) as [-> ->]; apply rtc_refl.
  - destruct (cinv_step _ _ _ _ _ Hi Hst) as (pr' & re' & Hi' & Ht). lia.
  - destruct (cinv_step _ _ _ _ _ Hi Hst) as (pr' & re' & Hi' & Ht).
    eapply rtc_l; [exact Hst|]. eapply IH; [|exact Hi']. lia.
Qed.

Lemma cinv_always m ps pres rems : cinv m ps pres rems -> always (m, ps) (final_mem evss m0) rs.
Proof.
  intros Hi. split; [|split].
  - intros o Ho. inversion Ho as [m' ps' t p f Hr Ht Hf|m' rs' Hr]; subst.
    + destruct (cinv_rtc _ _ _ _ _ Hi Hr) as (pr & re & Hi'). simpl in Hi'.
      exfalso. eapply cinv_no_fault; eauto.
    + destruct (cinv_rtc _ _ _ _ _ Hi Hr) as (pr & re & Hi'). simpl in Hi'.
      destruct (cinv_rets _ _ _ _ Hi') as [-> ->]. reflexivity.
  - exists (todo rems). intros k c' Hk. eapply (cinv_bound k (m, ps)); eauto.
  - apply out_done. eapply cinv_finish; eauto.
Qed.

Lemma cinv_strict_norace m ps pres rems : strict evss -> cinv m ps pres rems -> ~ race (m, ps).
Proof.
  intros Hst Hi (t & u & p & q & l & b1 & b2 & Hne & Ht & Hu & Hp & Hq & Hb). simpl in Ht, Hu.
  destruct (cinv_lookups _ _ _ _ _ _ Hi Ht) as (pre & rem & r & mf & Hpre & Hrem & Hr & He & Hs).
  destruct (cinv_lookups _ _ _ _ _ _ Hi Hu) as (pre' & rem' & r' & mf' & Hpre' & Hrem' & Hr' & He' & Hs').
  assert (Hev : forall m p b rem (r : R) mf, solo m p rem r mf -> nextloc p = Some (l, b) ->
     match b with true => exists v, EWr l v ∈ rem | false => ERd l ∈ rem \/ EAny l ∈ rem end).
  { intros m1 p1 b rem1 r1 mf1 Hs1 Hp1. inversion Hs1; subst; simpl in Hp1; try discriminate; injection Hp1 as -> <-.
    - left. left.
    - right. left.
    - eexists. left. }
  pose proof (Hev _ _ _ _ _ _ Hs Hp) as H1. pose proof (Hev _ _ _ _ _ _ Hs' Hq) as H2.
  destruct b1.
  - destruct H1 as [v H1]. destruct (Hst t u _ _ l v Hne He He') as (X1 & X2 & X3); [apply elem_of_app; auto|].
    destruct b2; [destruct H2 as [w H2]; apply (X3 w)|destruct H2 as [H2|H2]; [apply X1|apply X2]]; apply elem_of_app; auto.
  - destruct b2; [|discriminate]. destruct H2 as [v H2].
    destruct (Hst u t _ _ l v (not_eq_sym Hne) He' He) as (X1 & X2 & X3); [apply elem_of_app; auto|].
    destruct H1 as [H1|H1]; [apply X1|apply X2]; apply elem_of_app; auto.
Qed.
End Phase.

Lemma cinv_init {R} m0 (ps : list (prog R)) evss rs :
  length evss = length ps -> length rs = length ps ->
  (forall t p evs r, ps !! t = Some p -> evss !! t = Some evs -> rs !! t = Some r -> exists mf, solo m0 p evs r mf) ->
  cinv m0 evss rs m0 ps (replicate (length ps) []) evss.
Proof.
  intros L1 L2 Hs.
  assert (Hrep : forall t pre, replicate (length ps) [] !! t = Some pre -> pre = @nil event).
  { intros t pre Ht. apply lookup_replicate_1 in Ht as [? _]. auto. }
  split.
  - rewrite replicate_length. lia.
  - intros t pre rem Hp Hr. apply Hrep in Hp as ->. exact Hr.
  - intros t p pre rem r Hp Hpre Hr Hrs. apply Hrep in Hpre as ->. simpl. eauto.
  - reflexivity.
  - intros t pre l Hpre. apply Hrep in Hpre as ->. reflexivity.
  - intros t pre l Hpre [v Hv]. apply Hrep in Hpre as ->. inversion Hv.
  - reflexivity.
Qed.

(** The interleaving theorem. *)
Theorem phase_always {R} m0 (ps : list (prog R)) evss rs :
  length evss = length ps -> length rs = length ps ->
  (forall t p evs r, ps !! t = Some p -> evss !! t = Some evs -> rs !! t = Some r -> exists mf, solo m0 p evs r mf) ->
  compat evss -> always (m0, ps) (final_mem evss m0) rs.
Proof. intros L1 L2 Hs Hc. eapply cinv_always; [exact Hc|]. apply cinv_init; auto. Qed.

Theorem phase_race_free {R} m0 (ps : list (prog R)) evss rs :
  length evss = length ps -> length rs = length ps ->
  (forall t p evs r, ps !! t = Some p -> evss !! t = Some evs -> rs !! t = Some r -> exists mf, solo m0 p evs r mf) ->
  strict evss -> race_free (m0, ps).
Proof.
  intros L1 L2 Hs Hst [m' ps'] Hrtc.
  destruct (cinv_rtc m0 evss rs (strict_compat _ Hst) _ _ _ _ _ (cinv_init m0 ps evss rs L1 L2 Hs) Hrtc) as (pr & re & Hi).
  eapply cinv_strict_norace; eauto.
Qed.

(** Composition of solo runs. *)
Lemma solo_bind {R S} m (p : prog R) (k : R -> prog S) e1 r m1 e2 s m2 :
  solo m p e1 r m1 -> solo m1 (k r) e2 s m2 -> solo m (pbind p k) (e1 ++ e2) s m2.
Proof.
  induction 1 as [|? ? ? ? ? ? ? ? ? IH|? l ? ? ? ? Hl ? IH|? ? ? ? ? ? ? ? ? IH]; intros Hk; simpl; auto.
  - econstructor; eauto.
  - apply solo_any; [exact Hl|]. intros v. apply IH, Hk.
  - econstructor; eauto.
Qed.

Lemma solo_det {R} m (p : prog R) e1 r1 m1 e2 r2 m2 : solo m p e1 r1 m1 -> solo m p e2 r2 m2 -> r1 = r2 /\ m1 = m2.
Proof.
  intros H1. revert e2 r2 m2.
  induction H1 as [|? ? ? ? ? ? ? ? ? IH|? l ? ? ? ? [w Hl] ? IH|? ? ? ? ? ? ? ? ? IH]; intros e2 r2 m2 H2; inversion H2; subst; auto.
  - simplify_eq. eauto.
  - eauto.
  - eauto.
  - eapply (IH w). eauto.
  - eapply IH. eauto.
Qed.

Lemma solo_lift {R S} m (r : res R) (k : R -> prog S) x evs s m' : r = Ok x -> solo m (k x) evs s m' -> solo m (pbind (lift r) k) evs s m'.
Proof. intros ->. auto. Qed.

(** Loops: [E i] are the events of iteration [i]. *)
Lemma solo_pfor_n {S} (Inv : nat -> S -> mem -> Prop) (E : nat -> list event) body n lo s m :
  (forall i s m, lo <= i < lo + n -> Inv i s m -> exists s' m', solo m (body i s) (E i) s' m' /\ Inv (Datatypes.S i) s' m') ->
  Inv lo s m ->
  exists s' m', solo m (pfor_n n lo body s) (mjoin (E <$> seq lo n)) s' m' /\ Inv (lo + n) s' m'.
Proof.
  revert lo s m. induction n as [|n IH]; intros lo s m Hb Hi.
  - exists s, m. rewrite Nat.add_0_r. split; [constructor|exact Hi].
  - destruct (Hb lo s m) as (s1 & m1 & H1 & Hi1); [lia|exact Hi|].
    destruct (IH (Datatypes.S lo) s1 m1) as (s2 & m2 & H2 & Hi2); [intros; apply Hb; [lia|assumption]|exact Hi1|].
    exists s2, m2. replace (lo + Datatypes.S n) with (Datatypes.S lo + n) by lia. split; [|exact Hi2].
    cbn [seq]. rewrite fmap_cons, mjoin_cons. cbn [pfor_n]. eapply solo_bind; eauto.
Qed.

Lemma elem_of_events (E : nat -> list event) lo n e : e ∈ mjoin (E <$> seq lo n) <-> exists i, lo <= i < lo + n /\ e ∈ E i.
Proof.
  rewrite elem_of_list_join. split.
  - intros (l & He & Hl). apply elem_of_list_fmap in Hl as (i & -> & Hi). apply elem_of_seq in Hi. eauto.
  - intros (i & Hi & He). exists (E i). split; [exact He|]. apply elem_of_list_fmap. exists i. split; [reflexivity|].
    apply elem_of_seq. lia.
Qed.

Lemma always_unique {R} (c : cfg R) (m : mem) (rs : list R) m' rs' : always c m rs -> always c m' rs' -> m = m' /\ rs = rs'.
Proof. intros (H1 & _ & H3) (H4 & _ & _). specialize (H4 _ H3). injection H4 as -> ->. auto. Qed.

Lemma region_always_outcome {E S} (phs : list (phase E S)) e m ss e' m' ss' o :
  region_always phs e m ss e' m' ss' -> region_outcome phs e m ss o -> o = Ok (e', m', ss').
Proof.
  induction 1 as [|f phs e m ss m1 ss1 e' m' ss' Ha _ IH|f phs e m s0 ss e1 m1 e' m' ss' Hf _ IH]; intros Ho;
    inversion Ho; subst; simplify_eq; auto.
  - exfalso. destruct Ha as [Ha _]. specialize (Ha _ ltac:(eassumption)). discriminate.
  - apply IH. destruct Ha as [Ha _]. specialize (Ha _ ltac:(eassumption)). simplify_eq. assumption.
  - congruence.
  - apply IH. match goal with X : f s0 e m = Ok _ |- _ => rewrite Hf in X; injection X as <- <- end. assumption.
Qed.

Lemma region_always_exists {E S} (phs : list (phase E S)) e m ss e' m' ss' :
  region_always phs e m ss e' m' ss' -> region_outcome phs e m ss (Ok (e', m', ss')).
Proof.
  induction 1 as [|f phs e m ss m1 ss1 e' m' ss' Ha _ IH|f phs e m s0 ss e1 m1 e' m' ss' Hf _ IH].
  - constructor.
  - eapply ro_par; [apply Ha|exact IH].
  - eapply ro_master; eauto.
Qed.

End Conc.
