(** Parallel loops whose iterations touch disjoint cells. *)
From Verif Require Import ParModel ConcProofs BaseProofs ScanModel DriverBase.

Section ParFor.
Context {L Val : Type} `{Countable L}.
Notation mem := (gmap L Val).
Notation event := (@event L Val).

Context (body : nat -> prog L Val unit) (n : nat) (m0 : mem).
(** Events of iteration [i]; the cells it owns; the cells nobody writes. *)
Context (evs : nat -> list event) (own : nat -> L -> Prop) (wv : L -> option Val).
Hypothesis Hsolo : forall i m, i < n -> (forall l, is_Some (m !! l) <-> is_Some (m0 !! l)) ->
  (forall l, own i l \/ (forall j, j < n -> ~ own j l) -> m !! l = m0 !! l) ->
  exists mf, solo m (body i) (evs i) tt mf.
Hypothesis Hw : forall i l v, i < n -> EWr l v ∈ evs i -> own i l /\ wv l = Some v.
Hypothesis Hr : forall i j l, i < n -> j < n -> ERd l ∈ evs i -> own j l -> j = i.
Hypothesis Ha : forall i j l, i < n -> j < n -> EAny l ∈ evs i -> own j l -> j = i.
Hypothesis Hx : forall i j l, i < n -> j < n -> own i l -> own j l -> i = j.

Definition itEvs (its : list nat) : list event := mjoin (evs <$> its).

Lemma itEvs_elem its e : e ∈ itEvs its <-> exists i, i ∈ its /\ e ∈ evs i.
Proof.
  unfold itEvs. rewrite elem_of_list_join. split.
  - intros (l & He & Hl). apply elem_of_list_fmap in Hl as (i & -> & Hi). eauto.
  - intros (i & Hi & He). exists (evs i). split; [exact He|]. apply elem_of_list_fmap. eauto.
Qed.

Lemma runIts_solo its m : NoDup its -> (forall i, i ∈ its -> i < n) ->
  (forall l, is_Some (m !! l) <-> is_Some (m0 !! l)) ->
  (forall i l, i ∈ its -> own i l -> m !! l = m0 !! l) ->
  (forall l, (forall j, j < n -> ~ own j l) -> m !! l = m0 !! l) ->
  exists mf, solo m (runIts body its) (itEvs its) tt mf.
Proof.
  revert m. induction its as [|i its IH]; intros m Hnd Hlt Hd Ho Hn.
  - exists m. constructor.
  - apply NoDup_cons in Hnd as [Hni Hnd].
    destruct (Hsolo i m) as [m1 H1]; [apply Hlt; left|exact Hd| |].
    { intros l [Hl|Hl]; [apply (Ho i); [left|exact Hl]|apply Hn, Hl]. }
    assert (Hk : forall l, ~ own i l -> m1 !! l = m !! l).
    { intros l Hl. apply (solo_keep _ _ _ _ _ l H1). intros v Hv. apply Hl, (Hw i l v); [apply Hlt; left|exact Hv]. }
    destruct (IH m1) as [m2 H2].
    + exact Hnd.
    + intros j Hj. apply Hlt. right. exact Hj.
    + intros l. rewrite <- Hd. symmetry. apply (solo_dom _ _ _ _ _ l H1).
    + intros j l Hj Hl. rewrite Hk; [apply (Ho j); [right; exact Hj|exact Hl]|].
      intros Hil. assert (i = j) as -> by (apply (Hx i j l); [apply Hlt; left|apply Hlt; right; exact Hj|exact Hil|exact Hl]). contradiction.
    + intros l Hl. rewrite Hk; [apply Hn, Hl|]. apply Hl, Hlt. left.
    + exists m2. unfold itEvs. rewrite fmap_cons, mjoin_cons. simpl. eapply solo_bind; [exact H1|exact H2].
Qed.

Lemma sched_lt asg t its i : schedule n asg -> asg !! t = Some its -> i ∈ its -> i < n.
Proof.
  intros Hs Ht Hi. assert (i ∈ seq 0 n) as Hin.
  { rewrite <- Hs. apply elem_of_list_join. exists its. split; [exact Hi|]. eapply elem_of_list_lookup_2, Ht. }
  apply elem_of_seq in Hin. lia.
Qed.
Lemma sched_nodup asg t its : schedule n asg -> asg !! t = Some its -> NoDup its.
Proof.
  intros Hs Ht. assert (Hnd : NoDup (mjoin asg)) by (rewrite Hs; apply NoDup_seq).
  rewrite <- (take_drop_middle asg t its Ht), mjoin_app, mjoin_cons in Hnd.
  apply NoDup_app in Hnd as (_ & _ & Hnd). apply NoDup_app in Hnd as [Hnd _]. exact Hnd.
Qed.
Lemma sched_uniq asg t u its itu i : schedule n asg -> asg !! t = Some its -> asg !! u = Some itu -> i ∈ its -> i ∈ itu -> t = u.
Proof.
  intros Hs. assert (Hnd : NoDup (mjoin asg)) by (rewrite Hs; apply NoDup_seq). clear Hs.
  revert t u. induction asg as [|a asg IH]; intros t u Ht Hu Hi Hj; [destruct t; discriminate|].
  rewrite mjoin_cons in Hnd. apply NoDup_app in Hnd as (_ & Hd & Hnd).
  assert (Hj' : forall u itu, asg !! u = Some itu -> i ∈ itu -> i ∈ mjoin asg)
    by (intros u' itu' Hu' Hi'; apply elem_of_list_join; exists itu'; split; [exact Hi'|eapply elem_of_list_lookup_2, Hu']).
  destruct t as [|t], u as [|u]; simpl in Ht, Hu; [reflexivity| | |].
  - injection Ht as ->. exfalso. apply (Hd i Hi), (Hj' u itu Hu Hj).
  - injection Hu as ->. exfalso. apply (Hd i Hj), (Hj' t its Ht Hi).
  - f_equal. apply IH; auto.
Qed.

Lemma imap_run (asg : list (list nat)) :
  runIts body <$> asg = imap ((fun (_ : unit) t (_ : unit) => runIts body (default [] (asg !! t))) tt) (replicate (length asg) tt).
Proof.
  apply list_eq. intros t. rewrite list_lookup_fmap, list_lookup_imap.
  destruct (asg !! t) as [its|] eqn:E; cbn [fmap option_fmap option_map].
  - rewrite lookup_replicate_2 by (eapply lookup_lt_Some, E). reflexivity.
  - apply lookup_ge_None in E. rewrite (lookup_ge_None_2 (replicate _ _)) by (rewrite replicate_length; lia). reflexivity.
Qed.

Section Asg.
Context (asg : list (list nat)) (Hs : schedule n asg).
Let share t := default [] (asg !! t).
Let ownT t l := exists i, i ∈ share t /\ own i l.

Lemma share_lt t i : i ∈ share t -> i < n.
Proof. unfold share. destruct (asg !! t) eqn:E; simpl; [eapply sched_lt; eauto|intros Hi; inversion Hi]. Qed.
Lemma share_uniq t u i : t < length asg -> i ∈ share t -> i ∈ share u -> t = u.
Proof.
  intros Ht. unfold share. destruct (asg !! t) eqn:E; [|intros Hi; inversion Hi].
  destruct (asg !! u) eqn:E'; [|intros _ Hi; inversion Hi]. simpl. intros. eapply sched_uniq; eauto.
Qed.
Lemma share_solo t : exists mf, solo m0 (runIts body (share t)) (itEvs (share t)) tt mf.
Proof.
  apply runIts_solo; [|intros; eapply share_lt; eauto|reflexivity|auto|auto].
  unfold share. destruct (asg !! t) eqn:E; simpl; [eapply sched_nodup; eauto|constructor].
Qed.
Lemma ownT_uniq t u l : t < length asg -> u < length asg -> ownT t l -> ownT u l -> t = u.
Proof.
  intros Ht Hu (i & Hi & Hl) (j & Hj & Hl'). assert (i = j) as -> by (eapply Hx; eauto using share_lt). eapply share_uniq; eauto.
Qed.
Lemma share_of i : i < n -> exists t, t < length asg /\ i ∈ share t.
Proof.
  intros Hi. assert (Hin : i ∈ mjoin asg) by (rewrite Hs; apply elem_of_seq; lia).
  apply elem_of_list_join in Hin as (its & Hi' & Hin). apply elem_of_list_lookup in Hin as [t Ht].
  exists t. split; [eapply lookup_lt_Some, Ht|]. unfold share. rewrite Ht. exact Hi'.
Qed.

Lemma parfor_asg : exists m', always (m0, runIts body <$> asg) m' (replicate (length asg) tt) /\
  (forall i l v, i < n -> EWr l v ∈ evs i -> m' !! l = Some v) /\
  (forall l, (forall i v, i < n -> EWr l v ∉ evs i) -> m' !! l = m0 !! l).
Proof.
  rewrite imap_run.
  destruct (owned_phase (length asg) (replicate (length asg) tt)
    (fun (_ : unit) t (_ : unit) => runIts body (default [] (asg !! t))) tt m0 (fun t => itEvs (share t)) (fun _ => tt) ownT wv)
    as (m' & Hal & Hwr & Hkp).
  - apply replicate_length.
  - intros t s Ht _. apply share_solo.
  - intros t l v Ht Hin. apply itEvs_elem in Hin as (i & Hi & Hin). destruct (Hw i l v (share_lt t i Hi) Hin) as [Ho Hv].
    split; [exists i; auto|exact Hv].
  - intros t u l Ht Hu Hin (j & Hj & Hl). apply itEvs_elem in Hin as (i & Hi & Hin).
    assert (j = i) as -> by (eapply Hr; eauto using share_lt). eapply share_uniq; eauto.
  - intros t u l Ht Hu. apply ownT_uniq; auto.
  - exists m'. split; [|split].
    + replace (replicate (length asg) tt) with ((fun _ : nat => tt) <$> seq 0 (length asg)) at 2; [exact Hal|].
      apply list_eq. intros t. rewrite list_lookup_fmap. destruct (Nat.lt_ge_cases t (length asg)) as [Ht|Ht].
      * rewrite lookup_seq_lt, lookup_replicate_2 by lia. reflexivity.
      * rewrite !lookup_ge_None_2 by (rewrite ?replicate_length, ?seq_length; lia). reflexivity.
    + intros i l v Hi Hin. destruct (share_of i Hi) as (t & Ht & His). apply (Hwr t l v Ht). apply itEvs_elem. eauto.
    + intros l Hl. apply Hkp. intros t v Ht Hin. apply itEvs_elem in Hin as (i & Hi & Hin). apply (Hl i v (share_lt t i Hi) Hin).
Qed.

Lemma parfor_asg_race : race_free (m0, runIts body <$> asg).
Proof.
  rewrite imap_run.
  apply (owned_race_free (length asg) (replicate (length asg) tt)
    (fun (_ : unit) t (_ : unit) => runIts body (default [] (asg !! t))) tt m0 (fun t => itEvs (share t)) (fun _ => tt) ownT).
  - apply replicate_length.
  - intros t s Ht _. apply share_solo.
  - intros t l v Ht Hin. apply itEvs_elem in Hin as (i & Hi & Hin). exists i. split; [exact Hi|]. apply (Hw i l v (share_lt t i Hi) Hin).
  - intros t u l Ht Hu Hin (j & Hj & Hl). apply itEvs_elem in Hin as (i & Hi & Hin).
    assert (j = i) as -> by (eapply Hr; eauto using share_lt). eapply share_uniq; eauto.
  - intros t u l Ht Hu Hin (j & Hj & Hl). apply itEvs_elem in Hin as (i & Hi & Hin).
    assert (j = i) as -> by (eapply Ha; eauto using share_lt). eapply share_uniq; eauto.
  - intros t u l Ht Hu. apply ownT_uniq; auto.
Qed.
End Asg.

Lemma sched_one : schedule n [seq 0 n].
Proof. unfold schedule. rewrite mjoin_cons. simpl. rewrite app_nil_r. reflexivity. Qed.

(** The loop always ends with the writes of all iterations applied, for every schedule. *)
Theorem parfor_owned : exists m', parfor_ends body n m0 m' /\
  (forall i l v, i < n -> EWr l v ∈ evs i -> m' !! l = Some v) /\
  (forall l, (forall i v, i < n -> EWr l v ∉ evs i) -> m' !! l = m0 !! l).
Proof.
  destruct (parfor_asg _ sched_one) as (m' & Hal & Hwr & Hkp). exists m'. split; [|auto].
  intros asg Hs. destruct (parfor_asg asg Hs) as (m2 & Hal2 & Hwr2 & Hkp2).
  assert (m2 = m') as <-; [|exact Hal2]. apply map_eq. intros l.
  destruct (writes_dec l (itEvs (seq 0 n))) as [[v Hv]|Hno].
  - apply itEvs_elem in Hv as (i & Hi & Hv). apply elem_of_seq in Hi. rewrite (Hwr i l v), (Hwr2 i l v); auto; lia.
  - assert (Hno' : forall i v, i < n -> EWr l v ∉ evs i).
    { intros i v Hi Hv. apply (Hno v). apply itEvs_elem. exists i. split; [apply elem_of_seq; lia|exact Hv]. }
    rewrite Hkp, Hkp2 by exact Hno'. reflexivity.
Qed.
Theorem parfor_owned_race : parfor_race_free body n m0.
Proof. intros asg Hs. apply parfor_asg_race, Hs. Qed.
End ParFor.
