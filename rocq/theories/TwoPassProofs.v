(** The two passes over the rows: any kernel that meets the row contract fills the matrix. *)
From stdpp Require Import numbers.
From Verif Require Import TwoPassModel BaseProofs ConcProofs ParProofs ScanProofs LegacyScanProofs WorkProofs Assemble IsectProofs.
From Verif Require DriverBase MatStatements.
From Verif Require Import Base Spec.

(** ** Schedules *)
Lemma asg_lt n asg t its i : schedule n asg -> asg !! t = Some its -> i ∈ its -> i < n.
Proof.
  intros Hs Ht Hi. assert (i ∈ seq 0 n) as Hin.
  { rewrite <- Hs. apply elem_of_list_join. exists its. split; [exact Hi|]. eapply elem_of_list_lookup_2, Ht. }
  apply elem_of_seq in Hin. lia.
Qed.
Lemma asg_of n asg i : schedule n asg -> i < n -> exists t its, asg !! t = Some its /\ i ∈ its.
Proof.
  intros Hs Hi. assert (Hin : i ∈ mjoin asg) by (rewrite Hs; apply elem_of_seq; lia).
  apply elem_of_list_join in Hin as (its & Hi' & Hin). apply elem_of_list_lookup in Hin as [t Ht]. eauto.
Qed.
Lemma itEvs_in {L Val : Type} (evs : nat -> list (@event L Val)) its e : e ∈ itEvs evs its <-> exists i, i ∈ its /\ e ∈ evs i.
Proof.
  unfold itEvs. rewrite elem_of_list_join. split.
  - intros (l & He & Hl). apply elem_of_list_fmap in Hl as (i & -> & Hi). eauto.
  - intros (i & Hi & He). exists (evs i). split; [exact He|]. apply elem_of_list_fmap. eauto.
Qed.

(** ** Threads that each run their share of the rows, with private state *)
Section Asg.
Context {L Val : Type} `{Countable L}.
Context (P : nat -> list nat -> prog L Val unit) (n : nat) (asg : list (list nat)) (m0 : gmap L Val).
Context (evs : nat -> list (@event L Val)) (own : nat -> L -> Prop) (wv : L -> option Val).
Hypothesis Hs : schedule n asg.
Hypothesis Hsolo : forall t its, asg !! t = Some its -> exists mf, solo m0 (P t its) (itEvs evs its) tt mf.
Hypothesis Hw : forall i l v, i < n -> EWr l v ∈ evs i -> own i l /\ wv l = Some v.
Hypothesis Hr : forall i l, ERd l ∉ evs i.
Hypothesis Ha : forall i l, EAny l ∉ evs i.
Hypothesis Hx : forall i j l, i < n -> j < n -> own i l -> own j l -> i = j.

Lemma imap_asg : imap P asg = imap ((fun (_ : unit) t (_ : unit) => P t (default [] (asg !! t))) tt) (replicate (length asg) tt).
Proof.
  apply list_eq. intros t. rewrite !list_lookup_imap.
  destruct (asg !! t) as [its|] eqn:E; cbn [fmap option_fmap option_map].
  - rewrite lookup_replicate_2 by (eapply lookup_lt_Some, E). reflexivity.
  - apply lookup_ge_None in E. rewrite (lookup_ge_None_2 (replicate _ _)) by (rewrite replicate_length; lia). reflexivity.
Qed.

Let share t := default [] (asg !! t).
Let ownT t l := exists i, i ∈ share t /\ own i l.
Lemma share_lt' t i : i ∈ share t -> i < n.
Proof. unfold share. destruct (asg !! t) eqn:E; simpl; [eapply asg_lt; eauto|intros Hi; inversion Hi]. Qed.
Lemma share_uniq2 t u i : t < length asg -> i ∈ share t -> i ∈ share u -> t = u.
Proof.
  intros Ht. unfold share. destruct (asg !! t) eqn:E; [|intros Hi; inversion Hi].
  destruct (asg !! u) eqn:E'; [|intros _ Hi; inversion Hi]. simpl. intros. eapply sched_uniq; eauto.
Qed.
Lemma share_solo' t : t < length asg -> exists mf, solo m0 (P t (share t)) (itEvs evs (share t)) tt mf.
Proof. intros Ht. unfold share. destruct (lookup_lt_is_Some_2 asg t Ht) as [its E]. rewrite E. apply Hsolo, E. Qed.
Lemma ownT_uniq' t u l : t < length asg -> u < length asg -> ownT t l -> ownT u l -> t = u.
Proof.
  intros Ht Hu (i & Hi & Hl) (j & Hj & Hl'). assert (i = j) as -> by (eapply Hx; eauto using share_lt'). eapply share_uniq2; eauto.
Qed.
Lemma no_rd t l : ERd l ∉ itEvs evs (share t).
Proof. intros Hin. apply itEvs_in in Hin as (i & _ & Hin). apply (Hr i l Hin). Qed.
Lemma no_any t l : EAny l ∉ itEvs evs (share t).
Proof. intros Hin. apply itEvs_in in Hin as (i & _ & Hin). apply (Ha i l Hin). Qed.

Lemma asg_phase : exists m', always (m0, imap P asg) m' (replicate (length asg) tt) /\
  (forall i l v, i < n -> EWr l v ∈ evs i -> m' !! l = Some v) /\
  (forall l, (forall i v, i < n -> EWr l v ∉ evs i) -> m' !! l = m0 !! l).
Proof.
  rewrite imap_asg.
  destruct (DriverBase.owned_phase (length asg) (replicate (length asg) tt)
    (fun (_ : unit) t (_ : unit) => P t (default [] (asg !! t))) tt m0 (fun t => itEvs evs (share t)) (fun _ => tt) ownT wv)
    as (m' & Hal & Hwr & Hkp).
  - apply replicate_length.
  - intros t s Ht _. apply share_solo', Ht.
  - intros t l v Ht Hin. apply itEvs_in in Hin as (i & Hi & Hin). destruct (Hw i l v (share_lt' t i Hi) Hin) as [Ho Hv].
    split; [exists i; auto|exact Hv].
  - intros t u l Ht Hu Hin. destruct (no_rd t l Hin).
  - intros t u l Ht Hu. apply ownT_uniq'; auto.
  - exists m'. split; [|split].
    + replace (replicate (length asg) tt) with ((fun _ : nat => tt) <$> seq 0 (length asg)) at 2; [exact Hal|].
      apply list_eq. intros t. rewrite list_lookup_fmap. destruct (Nat.lt_ge_cases t (length asg)) as [Ht|Ht].
      * rewrite lookup_seq_lt, lookup_replicate_2 by lia. reflexivity.
      * rewrite !lookup_ge_None_2 by (rewrite ?replicate_length, ?seq_length; lia). reflexivity.
    + intros i l v Hi Hin. destruct (asg_of n asg i Hs Hi) as (t & its & Ht & His). apply (Hwr t l v (lookup_lt_Some _ _ _ Ht)). apply itEvs_in. exists i. unfold share. rewrite Ht. auto.
    + intros l Hl. apply Hkp. intros t v Ht Hin. apply itEvs_in in Hin as (i & Hi & Hin). apply (Hl i v (share_lt' t i Hi) Hin).
Qed.
Lemma asg_race_free : race_free (m0, imap P asg).
Proof.
  rewrite imap_asg.
  apply (DriverBase.owned_race_free (length asg) (replicate (length asg) tt)
    (fun (_ : unit) t (_ : unit) => P t (default [] (asg !! t))) tt m0 (fun t => itEvs evs (share t)) (fun _ => tt) ownT).
  - apply replicate_length.
  - intros t s Ht _. apply share_solo', Ht.
  - intros t l v Ht Hin. apply itEvs_in in Hin as (i & Hi & Hin). exists i. split; [exact Hi|]. apply (Hw i l v (share_lt' t i Hi) Hin).
  - intros t u l Ht Hu Hin. destruct (no_rd t l Hin).
  - intros t u l Ht Hu Hin. destruct (no_any t l Hin).
  - intros t u l Ht Hu. apply ownT_uniq'; auto.
Qed.
End Asg.

Section Slices.
Context {V : Type} (R : nat -> list (nat * V)).
Lemma slice_uniq_pre i j p : pre R i <= p < pre R (S i) -> pre R j <= p < pre R (S j) -> i = j.
Proof.
  intros Hi Hj. destruct (Nat.lt_trichotomy i j) as [Hlt|[->|Hlt]]; [|reflexivity|].
  - pose proof (pre_le R (S i) j ltac:(lia)). lia.
  - pose proof (pre_le R (S j) i ltac:(lia)). lia.
Qed.
Lemma slice_of_pre n p : p < pre R n -> exists i, i < n /\ pre R i <= p < pre R (S i).
Proof.
  induction n as [|k IH]; [rewrite pre_0; lia|]. intros Hp.
  destruct (Nat.lt_ge_cases p (pre R k)) as [H|H]; [destruct (IH H) as (i & Hi & ?); exists i; split; [lia|assumption]|exists k; lia].
Qed.
Lemma psum_lengths n i : i <= n -> psum 0 Nat.add ((fun i => length (R i)) <$> seq 0 n) i = pre R i.
Proof.
  induction i as [|i IH]; intros Hi; [reflexivity|]. rewrite pre_S, <- IH by lia. apply psum_S.
  rewrite seq_at, decide_True by lia. reflexivity.
Qed.
End Slices.

Section Pass.
Context {V : Type} (dflt : V) (top : nat).
Notation mem := (gmap loc (tcell V)).
Notation ev := (@event loc (tcell V)).

Lemma symMem_lookup nz a i : symMem (V := V) nz !! (a, i) = if decide (a = tNz) then TN <$> nz !! i else None.
Proof. unfold symMem. rewrite cells_lookup, list_lookup_fmap. destruct (decide (a = tNz)); reflexivity. Qed.
Lemma numMem_lookup ids (vals : list V) a i : numMem ids vals !! (a, i) =
  if decide (a = tIds) then TN <$> ids !! i else if decide (a = tVals) then TV <$> vals !! i else None.
Proof.
  unfold numMem. rewrite !lookup_union, !cells_lookup, !list_lookup_fmap.
  destruct (decide (a = tIds)) as [->|]; [simpl; destruct (ids !! i); reflexivity|].
  destruct (decide (a = tVals)) as [->|]; [simpl; destruct (vals !! i); reflexivity|reflexivity].
Qed.
Lemma symMem_inj a b : symMem (V := V) a = symMem b -> a = b.
Proof.
  intros E. apply list_eq. intros i. assert (H : symMem (V := V) a !! (tNz, i) = symMem b !! (tNz, i)) by (rewrite E; reflexivity).
  rewrite !symMem_lookup in H. simpl in H. destruct (a !! i), (b !! i); simpl in H; congruence.
Qed.
Lemma numMem_inj i1 i2 (v1 v2 : list V) : numMem i1 v1 = numMem i2 v2 -> i1 = i2 /\ v1 = v2.
Proof.
  intros E. assert (H : forall a i, numMem i1 v1 !! (a, i) = numMem i2 v2 !! (a, i)) by (rewrite E; reflexivity).
  split; apply list_eq; intros i.
  - specialize (H tIds i). rewrite !numMem_lookup in H. simpl in H. destruct (i1 !! i), (i2 !! i); simpl in H; congruence.
  - specialize (H tVals i). rewrite !numMem_lookup in H. simpl in H. destruct (v1 !! i), (v2 !! i); simpl in H; congruence.
Qed.

Section Sym.
Context {S : Type} (n : nat) (cnt : nat -> nat) (init : nat -> res S) (sym : nat -> S -> res (S * nat)) (asg : list (list nat)).
Context (I : nat -> S -> Prop).
Hypothesis Hs : schedule n asg.
Hypothesis Hinit : forall t its, asg !! t = Some its -> exists s, init t = Ok s /\ I t s.
Hypothesis Hsym : forall t its i s, asg !! t = Some its -> i ∈ its -> I t s -> exists s', sym i s = Ok (s', cnt i) /\ I t s'.

Let evs (i : nat) : list ev := [EWr (tNz, i) (TN (cnt i))].

Lemma symRows_solo t its : asg !! t = Some its -> forall its', (forall i, i ∈ its' -> i ∈ its) -> forall s (m : mem), I t s ->
  (forall i, i < n -> is_Some (m !! (tNz, i))) -> exists mf, solo m (symRows sym its' s) (itEvs evs its') tt mf.
Proof.
  intros Ht its'. induction its' as [|i its' IH]; intros Hin s m HI Hm; [eexists; constructor|].
  destruct (Hsym t its i s Ht (Hin i ltac:(left)) HI) as (s' & E & HI').
  destruct (IH ltac:(intros; apply Hin; right; assumption) s' (<[(tNz, i) := TN (cnt i)]> m) HI') as [mf H].
  { intros j Hj. destruct (decide (i = j)) as [->|]; [rewrite lookup_insert; eauto|rewrite lookup_insert_ne by congruence; auto]. }
  exists mf. cbn [symRows]. eapply solo_lift; [exact E|]. unfold itEvs. rewrite fmap_cons, mjoin_cons. cbn [evs app fst snd].
  apply solo_wr; [apply Hm, (asg_lt n asg t its i Hs Ht), Hin; left|exact H].
Qed.

Lemma sym_pass nz0 : length nz0 = n ->
  always (symMem (V := V) nz0, symThreads init sym asg) (symMem (cnt <$> seq 0 n)) (replicate (length asg) tt) /\
  race_free (symMem (V := V) nz0, symThreads init sym asg).
Proof.
  intros Hn. unfold symThreads.
  set (own := fun i (l : loc) => l = (tNz, i)). set (wv := fun l : loc => Some (TN (V := V) (cnt (snd l)))).
  assert (Hsolo : forall t its, asg !! t = Some its -> exists mf, solo (symMem (V := V) nz0) (pbind (lift (init t)) (symRows sym its)) (itEvs evs its) tt mf).
  { intros t its Ht. destruct (Hinit t its Ht) as (s & E & HI).
    destruct (symRows_solo t its Ht its ltac:(auto) s (symMem (V := V) nz0) HI) as [mf H].
    { intros i Hi. rewrite symMem_lookup. simpl. destruct (lookup_lt_is_Some_2 nz0 i) as [x ->]; [lia|]. simpl. eauto. }
    exists mf. eapply solo_lift; [exact E|exact H]. }
  assert (Hw : forall i l v, i < n -> EWr l v ∈ evs i -> own i l /\ wv l = Some v).
  { intros i l v _ Hin. apply elem_of_list_singleton in Hin. injection Hin as -> ->. split; reflexivity. }
  assert (Hr : forall i l, ERd l ∉ evs i) by (intros i l Hin; apply elem_of_list_singleton in Hin; discriminate).
  assert (Ha : forall i l, EAny l ∉ evs i) by (intros i l Hin; apply elem_of_list_singleton in Hin; discriminate).
  assert (Hx : forall i j l, i < n -> j < n -> own i l -> own j l -> i = j) by (unfold own; intros; congruence).
  split; [|exact (asg_race_free _ n asg _ evs own wv Hs Hsolo Hw Hr Ha Hx)].
  destruct (asg_phase _ n asg _ evs own wv Hs Hsolo Hw Hr Ha Hx) as (m' & Hal & Hwr & Hkp).
  replace (symMem (cnt <$> seq 0 n)) with m'; [exact Hal|]. apply map_eq. intros [a i]. rewrite symMem_lookup, seq_at.
  destruct (decide (i < n)) as [Hi|Hi].
  - destruct (decide (a = tNz)) as [->|Hne].
    + apply (Hwr i); [exact Hi|]. left.
    + rewrite Hkp, symMem_lookup, decide_False by (exact Hne || (intros j v _ Hin; apply elem_of_list_singleton in Hin; congruence)). reflexivity.
  - rewrite Hkp.
    + rewrite symMem_lookup, (lookup_ge_None_2 nz0) by lia. reflexivity.
    + intros j v Hj Hin. apply elem_of_list_singleton in Hin. injection Hin as _ -> _. lia.
Qed.
End Sym.

Section Num.
Context {S : Type} (n : nat) (R : nat -> list (nat * V)) (init : nat -> res S) (num : nat -> S -> res (S * list (nat * V))) (asg : list (list nat)).
Context (I : nat -> S -> Prop).
Hypothesis Hs : schedule n asg.
Hypothesis Hinit : forall t its, asg !! t = Some its -> exists s, init t = Ok s /\ I t s.
Hypothesis Hnum : forall t its i s, asg !! t = Some its -> i ∈ its -> I t s -> exists s', num i s = Ok (s', R i) /\ I t s'.

Fixpoint evS (off : nat) (l : list (nat * V)) : list ev :=
  match l with [] => [] | x :: l' => EWr (tIds, off) (TN (fst x)) :: EWr (tVals, off) (TV (snd x)) :: evS (off + 1) l' end.
Lemma evS_elem off l e : e ∈ evS off l <-> exists k x, l !! k = Some x /\ (e = EWr (tIds, off + k) (TN (fst x)) \/ e = EWr (tVals, off + k) (TV (snd x))).
Proof.
  revert off. induction l as [|y l IH]; intros off; cbn [evS].
  - rewrite elem_of_nil. split; [tauto|]. intros (k & x & E & _). discriminate.
  - rewrite !elem_of_cons, IH. split.
    + intros [->|[->|(k & x & E & H)]].
      * exists 0, y. rewrite Nat.add_0_r. auto.
      * exists 0, y. rewrite Nat.add_0_r. auto.
      * exists (Datatypes.S k), x. replace (off + Datatypes.S k) with (off + 1 + k) by lia. auto.
    + intros ([|k] & x & E & H); simpl in E.
      * injection E as ->. rewrite Nat.add_0_r in H. tauto.
      * right. right. exists k, x. replace (off + 1 + k) with (off + Datatypes.S k) by lia. auto.
Qed.
Lemma storeRow_solo l : forall off (m : mem), (forall k, k < length l -> is_Some (m !! (tIds, off + k)) /\ is_Some (m !! (tVals, off + k))) ->
  exists mf, solo m (storeRow off l) (evS off l) tt mf.
Proof.
  induction l as [|x l IH]; intros off m Hm; [eexists; constructor|].
  destruct (IH (off + 1) (<[(tVals, off) := TV (snd x)]> (<[(tIds, off) := TN (fst x)]> m))) as [mf H].
  { intros k Hk. replace (off + 1 + k) with (off + Datatypes.S k) by lia.
    rewrite !lookup_insert_ne by (intros [=]; lia). apply Hm. simpl. lia. }
  destruct (Hm 0 ltac:(simpl; lia)) as [H1 H2]. rewrite Nat.add_0_r in H1, H2.
  exists mf. cbn [storeRow evS]. apply solo_wr; [exact H1|]. apply solo_wr; [|exact H].
  rewrite lookup_insert_ne by (intros [=]). exact H2.
Qed.

Let evs (i : nat) : list ev := evS (pre R i) (R i).
Let rp := pre R <$> seq 0 (n + 1).

Lemma numRows_solo t its : asg !! t = Some its -> forall its', (forall i, i ∈ its' -> i ∈ its) -> forall s (m : mem), I t s ->
  (forall p, p < pre R n -> is_Some (m !! (tIds, p)) /\ is_Some (m !! (tVals, p))) -> exists mf, solo m (numRows num rp its' s) (itEvs evs its') tt mf.
Proof.
  intros Ht its'. induction its' as [|i its' IH]; intros Hin s m HI Hm; [eexists; constructor|].
  assert (Hi : i < n) by (apply (asg_lt n asg t its i Hs Ht), Hin; left).
  destruct (Hnum t its i s Ht (Hin i ltac:(left)) HI) as (s' & E & HI').
  destruct (storeRow_solo (R i) (pre R i) m) as [m1 H1].
  { intros k Hk. apply Hm. pose proof (pre_le R (Datatypes.S i) n ltac:(lia)) as Hp. rewrite pre_S in Hp. lia. }
  destruct (IH ltac:(intros; apply Hin; right; assumption) s' m1 HI') as [mf H].
  { intros p Hp. destruct (Hm p Hp) as [Ha Hb]. split; [apply (DriverBase.solo_dom _ _ _ _ _ _ H1), Ha|apply (DriverBase.solo_dom _ _ _ _ _ _ H1), Hb]. }
  exists mf. cbn [numRows]. eapply solo_lift; [exact E|].
  eapply solo_lift; [apply get_Some; unfold rp; rewrite seq_at, decide_True by lia; reflexivity|].
  unfold itEvs. rewrite fmap_cons, mjoin_cons. eapply solo_bind; [exact H1|exact H].
Qed.

Lemma num_pass :
  always (numMem (replicate (pre R n) 0) (replicate (pre R n) dflt), numThreads init num rp asg)
    (numMem (fst <$> rowsOf R 0 n) (snd <$> rowsOf R 0 n)) (replicate (length asg) tt) /\
  race_free (numMem (replicate (pre R n) 0) (replicate (pre R n) dflt), numThreads init num rp asg).
Proof.
  unfold numThreads. set (nn := pre R n). set (m1 := numMem (replicate nn 0) (replicate nn dflt)).
  set (own := fun i (l : loc) => (fst l = tIds \/ fst l = tVals) /\ pre R i <= snd l < pre R (Datatypes.S i)).
  set (wv := fun l : loc => (rowsOf R 0 n !! snd l) ≫= (fun x => Some (if decide (fst l = tIds) then TN (fst x) else TV (snd x)))).
  assert (Hsolo : forall t its, asg !! t = Some its -> exists mf, solo m1 (pbind (lift (init t)) (numRows num rp its)) (itEvs evs its) tt mf).
  { intros t its Ht. destruct (Hinit t its Ht) as (s & E & HI).
    destruct (numRows_solo t its Ht its ltac:(auto) s m1 HI) as [mf H].
    { intros p Hp. unfold m1. rewrite !numMem_lookup. simpl. rewrite !lookup_replicate_2 by exact Hp. simpl. eauto. }
    exists mf. eapply solo_lift; [exact E|exact H]. }
  assert (Hat : forall i k x, i < n -> R i !! k = Some x -> rowsOf R 0 n !! (pre R i + k) = Some x).
  { intros i k x Hi Hk. pose proof (lookup_lt_Some _ _ _ Hk). rewrite (rowsOf_lookup R i (Datatypes.S i) n) by (rewrite ?pre_S; lia).
    rewrite rowsOf_S, rowsOf_nil by lia. simpl. replace (pre R i + k - pre R i) with k by lia. exact Hk. }
  assert (Hw : forall i l v, i < n -> EWr l v ∈ evs i -> own i l /\ wv l = Some v).
  { intros i l v Hi Hin. apply evS_elem in Hin as (k & x & Hk & He). pose proof (lookup_lt_Some _ _ _ Hk) as Hkl.
    destruct He as [[= -> ->]|[= -> ->]]; unfold own, wv; rewrite pre_S; simpl; rewrite (Hat i k x Hi Hk); simpl; (split; [split; [auto|lia]|reflexivity]). }
  assert (Hr : forall i l, ERd l ∉ evs i) by (intros i l Hin; apply evS_elem in Hin as (k & x & _ & [H|H]); discriminate).
  assert (Ha : forall i l, EAny l ∉ evs i) by (intros i l Hin; apply evS_elem in Hin as (k & x & _ & [H|H]); discriminate).
  assert (Hx : forall i j l, i < n -> j < n -> own i l -> own j l -> i = j) by (intros i j l _ _ [_ H1] [_ H2]; eapply slice_uniq_pre; eauto).
  split; [|exact (asg_race_free _ n asg _ evs own wv Hs Hsolo Hw Hr Ha Hx)].
  destruct (asg_phase _ n asg _ evs own wv Hs Hsolo Hw Hr Ha Hx) as (m' & Hal & Hwr & Hkp).
  replace (numMem (fst <$> rowsOf R 0 n) (snd <$> rowsOf R 0 n)) with m'; [exact Hal|]. apply map_eq. intros [a p].
  assert (Hlen : length (rowsOf R 0 n) = nn) by (rewrite rowsOf_length, pre_0 by lia; unfold nn; lia).
  destruct (decide (a = tIds \/ a = tVals)) as [Hav|Hna].
  - rewrite numMem_lookup, !list_lookup_fmap. destruct (Nat.lt_ge_cases p nn) as [Hp|Hp].
    + destruct (slice_of_pre R n p Hp) as (i & Hi & Hsl). rewrite pre_S in Hsl.
      set (k := p - pre R i). assert (Hk : k < length (R i)) by lia. replace p with (pre R i + k) by lia.
      destruct (lookup_lt_is_Some_2 (R i) k Hk) as [x Hcv]. rewrite (Hat i k x Hi Hcv). simpl.
      destruct Hav as [->| ->]; simpl; apply (Hwr i); auto; apply evS_elem; exists k, x; auto.
    + rewrite (lookup_ge_None_2 (rowsOf R 0 n)) by lia. rewrite Hkp.
      * unfold m1. rewrite numMem_lookup, !(lookup_ge_None_2 (replicate nn _)) by (rewrite replicate_length; lia).
        destruct Hav as [->| ->]; reflexivity.
      * intros i v Hi Hin. destruct (Hw i _ _ Hi Hin) as [[_ Ho] _]. simpl in Ho.
        pose proof (pre_le R (Datatypes.S i) n ltac:(lia)). unfold nn in Hp. lia.
  - rewrite Hkp.
    + unfold m1. rewrite !numMem_lookup. rewrite !(decide_False (P := a = tIds)) by tauto. rewrite !(decide_False (P := a = tVals)) by tauto. reflexivity.
    + intros i v Hi Hin. destruct (Hw i _ _ Hi Hin) as [[Ho _] _]. simpl in Ho. tauto.
Qed.
End Num.
(** ** Both passes *)
Section Both.
Context {S1 S2 : Type} (n ncols nts : nat) (R : nat -> list (nat * V)).
Context (init1 : nat -> res S1) (sym : nat -> S1 -> res (S1 * nat)) (asg1 : list (list nat)) (I1 : nat -> S1 -> Prop).
Context (init2 : nat -> res S2) (num : list nat -> nat -> S2 -> res (S2 * list (nat * V))) (asg2 : list (list nat)) (I2 : nat -> S2 -> Prop).
Hypothesis Hs1 : schedule n asg1.
Hypothesis Hs2 : schedule n asg2.
Hypothesis Hinit1 : forall t its, asg1 !! t = Some its -> exists s, init1 t = Ok s /\ I1 t s.
Hypothesis Hsym : forall t its i s, asg1 !! t = Some its -> i ∈ its -> I1 t s -> exists s', sym i s = Ok (s', length (R i)) /\ I1 t s'.
Hypothesis Hinit2 : forall t its, asg2 !! t = Some its -> exists s, init2 t = Ok s /\ I2 t s.
Hypothesis Hnum : forall t its i s, asg2 !! t = Some its -> i ∈ its -> I2 t s -> exists s', num (pre R <$> seq 0 (n + 1)) i s = Ok (s', R i) /\ I2 t s'.

Lemma scan_lengths : (N.of_nat (n + 1) < 2 ^ 17)%N ->
  lScan_always 0 Nat.add top ((fun i => length (R i)) <$> seq 0 n) (n + 1) nts (replicate (n + 1) (Some 0)) (Some <$> (pre R <$> seq 0 (n + 1))).
Proof.
  intros HN. unfold lScan_always, lIsSeq. rewrite (proj2 (N.ltb_lt _ _) HN). rewrite seqScan_ok; try (intros; lia).
  - rewrite drop_ge by (rewrite replicate_length; lia). rewrite app_nil_r. f_equal. rewrite <- list_fmap_compose.
    apply list_eq. intros i. rewrite !seq_at. destruct (decide (i < n + 1)); [|reflexivity]. simpl. rewrite psum_lengths by lia. reflexivity.
  - rewrite fmap_length, seq_length. lia.
  - rewrite replicate_length. lia.
Qed.

(** The passes always end, and always with the matrix whose rows are given by [R]. *)
Theorem two_pass nz0 : length nz0 = n -> (N.of_nat (n + 1) < 2 ^ 17)%N ->
  twoPass_ends dflt top nts n ncols nz0 init1 sym asg1 init2 num asg2 (assemble R n ncols) /\
  (forall C, twoPass_ends dflt top nts n ncols nz0 init1 sym asg1 init2 num asg2 C -> C = assemble R n ncols) /\
  race_free (symMem (V := V) nz0, symThreads init1 sym asg1) /\
  race_free (numMem (replicate (pre R n) 0) (replicate (pre R n) dflt), numThreads init2 (num (pre R <$> seq 0 (n + 1))) (pre R <$> seq 0 (n + 1)) asg2).
Proof.
  intros Hn HN. pose proof (scan_lengths HN) as Hsc.
  destruct (sym_pass n (fun i => length (R i)) init1 sym asg1 I1 Hs1 Hinit1 Hsym nz0 Hn) as [P1 F1].
  destruct (num_pass n R init2 (num (pre R <$> seq 0 (n + 1))) asg2 I2 Hs2 Hinit2 Hnum) as [P2 F2].
  assert (Hg : get (pre R <$> seq 0 (n + 1)) n = Ok (pre R n)) by (apply get_Some; rewrite seq_at, decide_True by lia; reflexivity).
  split; [|split; [|split; [exact F1|exact F2]]].
  - split; [reflexivity|]. split; [reflexivity|]. exists ((fun i => length (R i)) <$> seq 0 n).
    split; [exact P1|]. split; [exact Hsc|]. split; [exact Hg|exact P2].
  - intros C (HrC & HcC & nz & Q1 & Qs & Qn & Q2).
    destruct (always_unique _ _ _ _ _ Q1 P1) as [E _]. apply symMem_inj in E as ->.
    assert (Erp : rowptr C = pre R <$> seq 0 (n + 1)).
    { unfold lScan_always in Qs, Hsc. assert (Es : lIsSeq (n + 1) = true) by (apply N.ltb_lt; exact HN). rewrite Es in Qs, Hsc.
      rewrite Hsc in Qs. injection Qs as Qs. apply (inj (fmap Some)) in Qs. symmetry. exact Qs. }
    rewrite Erp in *. rewrite Hg in Qn. injection Qn as Qn. rewrite <- Qn in Q2.
    destruct (always_unique _ _ _ _ _ Q2 P2) as [E _]. apply numMem_inj in E as [E1 E2].
    destruct C; simpl in *. subst. reflexivity.
Qed.

(** From 2^17 - 1 rows on the prefix sum reads past row_nz: the passes cannot end well. *)
Theorem two_pass_large nz0 : length nz0 = n -> (2 ^ 17 <= N.of_nat (n + 1))%N -> 1 <= nts <= n + 1 ->
  ~ (exists C, twoPass_ends dflt top nts n ncols nz0 init1 sym asg1 init2 num asg2 C).
Proof.
  intros Hn HN Hnt (C & _ & _ & nz & Q1 & Qs & _).
  destruct (sym_pass n (fun i => length (R i)) init1 sym asg1 I1 Hs1 Hinit1 Hsym nz0 Hn) as [P1 _].
  destruct (always_unique _ _ _ _ _ Q1 P1) as [E _]. apply symMem_inj in E as ->.
  assert (Hf : region_outcome (lRegion 0 Nat.add top ((fun i => length (R i)) <$> seq 0 n) (n + 1) nts) tt (lMem 0 (replicate (n + 1) (Some 0)) nts) (replicate nts tt) (Err OutOfBounds)).
  { apply lregion_fails; try (intros; lia); [rewrite replicate_length; lia|rewrite fmap_length, seq_length; lia]. }
  unfold lScan_always in Qs. replace (lIsSeq (n + 1)) with false in Qs by (symmetry; apply N.ltb_ge; exact HN).
  destruct Qs as (m & Qs & _). apply (region_always_outcome _ _ _ _ _ _ _ _ Qs) in Hf. discriminate.
Qed.
End Both.
End Pass.

(** ** The rows of each thread when the threads take consecutive ranges *)
Lemma foldM_snoc_seq (f : nat -> list nat) (g : list (list nat) -> nat -> res (list (list nat))) nt :
  (forall acc t, t < nt -> g acc t = Ok (acc ++ [f t])) -> forall lo acc, lo <= nt -> foldM g (seq lo (nt - lo)) acc = Ok (acc ++ (f <$> seq lo (nt - lo))).
Proof.
  intros Hg lo acc Hlo. remember (nt - lo) as k eqn:Ek. revert lo acc Hlo Ek. induction k as [|k IH]; intros lo acc Hlo Ek.
  - simpl. rewrite app_nil_r. reflexivity.
  - cbn [seq foldM]. rewrite Hg by lia. cbn [bind]. rewrite IH by lia. rewrite fmap_cons, <- app_assoc. reflexivity.
Qed.
Lemma chunks_ok off nt (cut : nat -> nat) : (forall t, t <= nt -> off !! t = Some (cut t)) ->
  chunks off nt = Ok ((fun t => seq (cut t) (cut (t + 1) - cut t)) <$> seq 0 nt).
Proof.
  intros H. unfold chunks. set (g := fun acc t => _). rewrite <- (Nat.sub_0_r nt) at 1 2.
  apply (foldM_snoc_seq (fun t => seq (cut t) (cut (t + 1) - cut t)) g nt) with (acc := []); [|lia].
  intros acc t Ht. unfold g. rewrite (get_Some _ _ _ (H t ltac:(lia))), (get_Some _ _ _ (H (t + 1) ltac:(lia))). reflexivity.
Qed.
Lemma chunks_schedule (cut : nat -> nat) n nt : cut 0 = 0 -> cut nt = n -> (forall t, t < nt -> cut t <= cut (t + 1)) ->
  schedule n ((fun t => seq (cut t) (cut (t + 1) - cut t)) <$> seq 0 nt).
Proof.
  intros H0 <- Hm. unfold schedule. induction nt as [|nt IH]; [rewrite H0; reflexivity|].
  rewrite seq_S, fmap_app, mjoin_app, IH by (intros; apply Hm; lia). simpl. rewrite app_nil_r.
  specialize (Hm nt ltac:(lia)). rewrite Nat.add_1_r in *. rewrite <- seq_app. replace (cut nt + (cut (S nt) - cut nt)) with (cut (S nt)) by lia. reflexivity.
Qed.
