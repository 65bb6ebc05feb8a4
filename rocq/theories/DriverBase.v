(** Lemmas shared by the proofs about the drivers. *)
From Verif Require Import MemModel MemProofs BaseProofs ConcProofs ScanProofs WorkProofs Assemble DriverModel.
From Verif Require Import Base Spec.

(** ** Solo runs: what they leave untouched *)
Section Solo.
Context {L Val : Type} `{Countable L}.

Lemma solo_dom {R} m (p : prog L Val R) evs r m' l : solo m p evs r m' -> is_Some (m !! l) <-> is_Some (m' !! l).
Proof.
  induction 1 as [|? ? ? ? ? ? ? ? ? IH|m l0 k evs r m' Hs Hk IH|? l0 ? ? ? ? ? Hl ? IH].
  - reflexivity.
  - exact IH.
  - destruct Hs as [v _]. apply (IH v).
  - rewrite <- IH. destruct (decide (l = l0)) as [->|Hne]; [rewrite lookup_insert; split; eauto|rewrite lookup_insert_ne by congruence; reflexivity].
Qed.

Lemma solo_keep {R} m (p : prog L Val R) evs r m' l : solo m p evs r m' -> (forall v, EWr l v ∉ evs) -> m' !! l = m !! l.
Proof. intros Hs Hn. rewrite (solo_mem _ _ _ _ _ Hs). apply apply_evs_notin, Hn. Qed.

(** ** Phases in which every written cell has one owner *)
Lemma owned_phase_t {E S} (nt : nat) (ss : list S) (f : E -> nat -> S -> prog L Val S) e m
    (evs : nat -> list event) (rs : nat -> S) (own : nat -> L -> Prop) (wvf : nat -> L -> option Val) :
  length ss = nt ->
  (forall t s, t < nt -> ss !! t = Some s -> exists mf, solo m (f e t s) (evs t) (rs t) mf) ->
  (forall t l v, t < nt -> EWr l v ∈ evs t -> own t l /\ wvf t l = Some v) ->
  (forall t u l, t < nt -> u < nt -> ERd l ∈ evs t -> own u l -> u = t) ->
  (forall t u l, t < nt -> u < nt -> own t l -> own u l -> t = u) ->
  exists m', always (m, imap (f e) ss) m' (rs <$> seq 0 nt) /\
    (forall t l v, t < nt -> EWr l v ∈ evs t -> m' !! l = Some v) /\
    (forall l, (forall t v, t < nt -> EWr l v ∉ evs t) -> m' !! l = m !! l).
Proof.
  intros Hl Hs Hw Hr Hx. set (evss := evs <$> seq 0 nt).
  assert (Hev : forall t et, evss !! t = Some et -> t < nt /\ et = evs t).
  { intros t et Ht. unfold evss in Ht. rewrite list_lookup_fmap in Ht. destruct (seq 0 nt !! t) as [x|] eqn:Ex; [|discriminate].
    apply lookup_seq in Ex as [-> Hlt]. injection Ht as <-. auto. }
  assert (Hc : compat evss).
  { intros t u et eu l v Hne Ht Hu Hin. apply Hev in Ht as [Ht ->]. apply Hev in Hu as [Hu ->].
    destruct (Hw t l v Ht Hin) as [Ho Hv]. split.
    - intros pre post Heq. exfalso. apply Hne. apply (Hr u t l Hu Ht); [|exact Ho]. rewrite Heq. apply elem_of_app. right. left.
    - intros v' Hin'. exfalso. destruct (Hw u l v' Hu Hin') as [Ho' _]. apply Hne, (Hx t u l Ht Hu Ho Ho'). }
  exists (final_mem evss m). split; [|split].
  - apply phase_always.
    + unfold evss. rewrite fmap_length, seq_length, imap_length. congruence.
    + rewrite fmap_length, seq_length, imap_length. congruence.
    + intros t p et r Hp Het Hr'. apply Hev in Het as [Ht ->]. rewrite list_lookup_imap in Hp.
      destruct (ss !! t) as [s|] eqn:Es; [|discriminate]. injection Hp as <-.
      rewrite list_lookup_fmap, lookup_seq_lt in Hr' by exact Ht. injection Hr' as <-. apply Hs; auto.
    + exact Hc.
  - intros t l v Ht Hin. assert (Hel : evss !! t = Some (evs t)) by (unfold evss; rewrite list_lookup_fmap, lookup_seq_lt by exact Ht; reflexivity).
    rewrite (final_mem_in evss m l t (evs t) v Hc Hel Hin). apply apply_evs_all; [eauto|].
    intros v0 Hin0. destruct (Hw t l v Ht Hin) as [_ H1]. destruct (Hw t l v0 Ht Hin0) as [_ H2]. congruence.
  - intros l Hn. apply final_mem_notin. intros t et v Het. apply Hev in Het as [Ht ->]. apply Hn, Ht.
Qed.

Lemma owned_phase {E S} (nt : nat) (ss : list S) (f : E -> nat -> S -> prog L Val S) e m
    (evs : nat -> list event) (rs : nat -> S) (own : nat -> L -> Prop) (wvf : L -> option Val) :
  length ss = nt ->
  (forall t s, t < nt -> ss !! t = Some s -> exists mf, solo m (f e t s) (evs t) (rs t) mf) ->
  (forall t l v, t < nt -> EWr l v ∈ evs t -> own t l /\ wvf l = Some v) ->
  (forall t u l, t < nt -> u < nt -> ERd l ∈ evs t -> own u l -> u = t) ->
  (forall t u l, t < nt -> u < nt -> own t l -> own u l -> t = u) ->
  exists m', always (m, imap (f e) ss) m' (rs <$> seq 0 nt) /\
    (forall t l v, t < nt -> EWr l v ∈ evs t -> m' !! l = Some v) /\
    (forall l, (forall t v, t < nt -> EWr l v ∉ evs t) -> m' !! l = m !! l).
Proof. intros Hl Hs Hw Hr Hx. apply (owned_phase_t nt ss f e m evs rs own (fun _ => wvf)); assumption. Qed.

Lemma owned_race_free {E S} (nt : nat) (ss : list S) (f : E -> nat -> S -> prog L Val S) e m
    (evs : nat -> list event) (rs : nat -> S) (own : nat -> L -> Prop) :
  length ss = nt ->
  (forall t s, t < nt -> ss !! t = Some s -> exists mf, solo m (f e t s) (evs t) (rs t) mf) ->
  (forall t l v, t < nt -> EWr l v ∈ evs t -> own t l) ->
  (forall t u l, t < nt -> u < nt -> ERd l ∈ evs t -> own u l -> u = t) ->
  (forall t u l, t < nt -> u < nt -> EAny l ∈ evs t -> own u l -> u = t) ->
  (forall t u l, t < nt -> u < nt -> own t l -> own u l -> t = u) ->
  race_free (m, imap (f e) ss).
Proof.
  intros Hl Hs Hw Hr Ha Hx. set (evss := evs <$> seq 0 nt).
  assert (Hev : forall t et, evss !! t = Some et -> t < nt /\ et = evs t).
  { intros t et Ht. unfold evss in Ht. rewrite list_lookup_fmap in Ht. destruct (seq 0 nt !! t) as [x|] eqn:Ex; [|discriminate].
    apply lookup_seq in Ex as [-> Hlt]. injection Ht as <-. auto. }
  apply (phase_race_free _ _ evss (rs <$> seq 0 nt)).
  - unfold evss. rewrite fmap_length, seq_length, imap_length. congruence.
  - rewrite fmap_length, seq_length, imap_length. congruence.
  - intros t p et r Hp Het Hr'. apply Hev in Het as [Ht ->]. rewrite list_lookup_imap in Hp.
    destruct (ss !! t) as [s|] eqn:Es; [|discriminate]. injection Hp as <-.
    rewrite list_lookup_fmap, lookup_seq_lt in Hr' by exact Ht. injection Hr' as <-. apply Hs; auto.
  - intros t u et eu l v Hne Ht Hu Hin. apply Hev in Ht as [Ht ->]. apply Hev in Hu as [Hu ->].
    pose proof (Hw t l v Ht Hin) as Ho. split; [|split].
    + intros Hin'. apply Hne, (Hr u t l Hu Ht Hin' Ho).
    + intros Hin'. apply Hne, (Ha u t l Hu Ht Hin' Ho).
    + intros v' Hin'. apply Hne, (Hx t u l Ht Hu Ho). apply (Hw u l v' Hu Hin').
Qed.
End Solo.

Section Store.
Context {V : Type}.
Notation mem := (gmap loc (val V)).
Notation ev := (@event loc (val V)).
Definition ev_store (a base : nat) (l : list (val V)) : list ev := imap (fun k x => EWr (a, base + k) x) l.
Lemma ev_store_elem a base l b i v : EWr (b, i) v ∈ ev_store a base l <-> b = a /\ base <= i /\ l !! (i - base) = Some v.
Proof.
  unfold ev_store. rewrite elem_of_lookup_imap. split.
  - intros (k & x & Heq & Hk). injection Heq as -> -> ->. split; [reflexivity|]. split; [lia|]. replace (base + k - base) with k by lia. exact Hk.
  - intros (-> & Hle & Hl). exists (i - base), v. split; [|exact Hl]. f_equal. f_equal. lia.
Qed.
Lemma ev_store_rd a base l x : ERd x ∉ ev_store a base l.
Proof. unfold ev_store. rewrite elem_of_lookup_imap. intros (k & y & Heq & _). discriminate. Qed.
Lemma ev_store_any a base l x : EAny x ∉ ev_store a base l.
Proof. unfold ev_store. rewrite elem_of_lookup_imap. intros (k & y & Heq & _). discriminate. Qed.
Lemma storeAt_solo a l : forall base m, (forall k, k < length l -> is_Some (m !! (a, base + k))) ->
  exists m', solo (Val := val V) m (storeAt a base l) (ev_store a base l) tt m'.
Proof.
  induction l as [|x l IH]; intros base m Hd; simpl.
  - exists m. constructor.
  - destruct (IH (S base) (<[(a, base) := x]> m)) as [m' Hs].
    { intros k Hk. destruct (decide (base = S base + k)); [lia|]. rewrite lookup_insert_ne by congruence.
      replace (S base + k) with (base + S k) by lia. apply Hd. simpl. lia. }
    exists m'. unfold ev_store. simpl. rewrite Nat.add_0_r. apply solo_wr; [specialize (Hd 0); rewrite Nat.add_0_r in Hd; apply Hd; simpl; lia|].
    replace (imap ((fun (k : nat) (x0 : val V) => EWr (a, base + k) x0) ∘ S) l) with (ev_store a (S base) l); [exact Hs|].
    unfold ev_store. apply imap_ext. intros k y _. simpl. f_equal. f_equal. lia.
Qed.
Lemma readNs_ok (m : mem) a (l : list nat) : (forall i x, l !! i = Some x -> m !! (a, i) = Some (VN x)) ->
  readNs m a (length l) = Some l.
Proof.
  intros H. unfold readNs. apply mapM_Some_2. apply Forall2_same_length_lookup_2; [rewrite seq_length; reflexivity|].
  intros i x y Hx Hy. apply lookup_seq in Hx as [-> _]. simpl. rewrite (H _ _ Hy). reflexivity.
Qed.
Lemma readVs_ok (m : mem) a (l : list V) : (forall i x, l !! i = Some x -> m !! (a, i) = Some (VV x)) ->
  readVs m a (length l) = Some l.
Proof.
  intros H. unfold readVs. apply mapM_Some_2. apply Forall2_same_length_lookup_2; [rewrite seq_length; reflexivity|].
  intros i x y Hx Hy. apply lookup_seq in Hx as [-> _]. simpl. rewrite (H _ _ Hy). reflexivity.
Qed.
End Store.

Section Out.
Context {V : Type} (rspec : nat -> list (nat * V)) (n nt : nat) (cut : nat -> nat).
Hypothesis Hnt : 1 <= nt.
Hypothesis Hcut0 : cut 0 = 0.
Hypothesis Hcutn : cut nt = n.
Hypothesis Hcutm : forall t, t < nt -> cut t <= cut (t + 1).
Notation pre := (pre rspec).
Notation rowsOf := (rowsOf rspec).
Notation mem := (gmap loc (val V)).
Notation tprog := (prog loc (val V)).
Notation ev := (@event loc (val V)).

Lemma cut_n t : t <= nt -> cut t <= n.
Proof. intros H. rewrite <- Hcutn. apply (cut_le cut nt); [exact Hcutm|lia]. Qed.
Lemma cut_disj t u i : t < nt -> u < nt -> cut t <= i < cut (t + 1) -> cut u <= i < cut (u + 1) -> t = u.
Proof.
  intros Ht Hu H1 H2. destruct (lt_eq_lt_dec t u) as [[Hlt| ->]|Hlt]; [|reflexivity|].
  - assert (cut (t + 1) <= cut u) by (apply (cut_le cut nt); [exact Hcutm|lia]). lia.
  - assert (cut (u + 1) <= cut t) by (apply (cut_le cut nt); [exact Hcutm|lia]). lia.
Qed.
Lemma pcut_disj t u i : t < nt -> u < nt -> pre (cut t) <= i < pre (cut (t + 1)) -> pre (cut u) <= i < pre (cut (u + 1)) -> t = u.
Proof.
  intros Ht Hu H1 H2. destruct (lt_eq_lt_dec t u) as [[Hlt| ->]|Hlt]; [|reflexivity|].
  - assert (cut (t + 1) <= cut u) by (apply (cut_le cut nt); [exact Hcutm|lia]). pose proof (pre_le rspec _ _ H). lia.
  - assert (cut (u + 1) <= cut t) by (apply (cut_le cut nt); [exact Hcutm|lia]). pose proof (pre_le rspec _ _ H). lia.
Qed.
Lemma pcut_le t : t < nt -> pre (cut t) <= pre (cut (t + 1)).
Proof. intros H. apply pre_le, Hcutm, H. Qed.
Lemma pcut_n t : t <= nt -> pre (cut t) <= pre n.
Proof. intros H. apply pre_le, cut_n, H. Qed.

(** Entries of thread [t]. *)
Definition tnv (t : nat) : nat := pre (cut (t + 1)) - pre (cut t).
Definition tout (t : nat) : list (nat * V) := rowsOf (cut t) (cut (t + 1)).
Lemma tout_length t : t < nt -> length (tout t) = tnv t.
Proof. intros H. apply rowsOf_length, Hcutm, H. Qed.

(** The value each shared cell gets. *)
Definition wvf (l : loc) : option (val V) :=
  let '(a, i) := l in
  if decide (a = aNv) then Some (VN (length (rspec i)))
  else if decide (a = aTn) then Some (VN (tnv i))
  else if decide (a = aRp) then Some (VN (pre i))
  else if decide (a = aCi) then (fun e => VN (fst e)) <$> rowsOf 0 n !! i
  else if decide (a = aVa) then (fun e => VV (snd e)) <$> rowsOf 0 n !! i
  else None.

(** Owners in the first phase and after the second barrier. *)
Definition own1 (t : nat) (l : loc) : Prop :=
  let '(a, i) := l in (a = aNv /\ cut t <= i < cut (t + 1)) \/ (a = aTn /\ i = t).
Definition own3 (t : nat) (l : loc) : Prop :=
  let '(a, i) := l in
  (a = aNv /\ cut t <= i < cut (t + 1)) \/
  (a = aRp /\ (cut t <= i < cut (t + 1) \/ (i = n /\ t = nt - 1))) \/
  ((a = aCi \/ a = aVa) /\ pre (cut t) <= i < pre (cut (t + 1))).

Lemma own1_excl t u l : t < nt -> u < nt -> own1 t l -> own1 u l -> t = u.
Proof.
  destruct l as [a i]. intros Ht Hu [[-> H1]|[-> H1]] [[H2 H3]|[H2 H3]]; try discriminate; [|congruence].
  eapply cut_disj; eauto.
Qed.
Lemma own3_excl t u l : t < nt -> u < nt -> own3 t l -> own3 u l -> t = u.
Proof.
  destruct l as [a i]. intros Ht Hu H1 H2.
  assert (Hn1 := cut_n (t + 1) ltac:(lia)). assert (Hn2 := cut_n (u + 1) ltac:(lia)).
  destruct H1 as [[-> H1]|[[-> H1]|[[->| ->] H1]]]; destruct H2 as [[? H2]|[[? H2]|[[?|?] H2]]]; try discriminate;
    try (eapply cut_disj; eassumption); try (eapply pcut_disj; eassumption).
  destruct H1 as [H1|[-> H1]], H2 as [H2|[H2 H3]]; try (eapply cut_disj; eassumption); lia.
Qed.

(** ** Memory when the output has been allocated *)
Record mem3 (m : mem) : Prop := {
  m3_nv : forall i, i < n -> m !! (aNv, i) = Some (VN (length (rspec i)));
  m3_tn : forall t, t < nt -> m !! (aTn, t) = Some (VN (tnv t));
  m3_rp : forall i, i <= n -> is_Some (m !! (aRp, i));
  m3_ci : forall p, p < pre n -> is_Some (m !! (aCi, p));
  m3_va : forall p, p < pre n -> is_Some (m !! (aVa, p)) }.

Lemma mem3_solo {R} m (p : tprog R) evs r m' : solo m p evs r m' -> mem3 m ->
  (forall a i v, EWr (a, i) v ∈ evs -> (a <> aNv /\ a <> aTn) \/ wvf (a, i) = Some v) -> mem3 m'.
Proof.
  intros Hs [H1 H2 H3 H4 H5] Hn. constructor.
  - intros i Hi. rewrite (solo_mem _ _ _ _ _ Hs). destruct (writes_dec (aNv, i) evs) as [Hex|Hno].
    + apply apply_evs_all; [exact Hex|]. intros v0 Hv0. destruct (Hn _ _ _ Hv0) as [[? _]|Hv]; [congruence|].
      unfold wvf in Hv. simpl in Hv. congruence.
    + rewrite apply_evs_notin by exact Hno. apply H1, Hi.
  - intros i Hi. rewrite (solo_mem _ _ _ _ _ Hs). destruct (writes_dec (aTn, i) evs) as [Hex|Hno].
    + apply apply_evs_all; [exact Hex|]. intros v0 Hv0. destruct (Hn _ _ _ Hv0) as [[_ ?]|Hv]; [congruence|].
      unfold wvf in Hv. simpl in Hv. congruence.
    + rewrite apply_evs_notin by exact Hno. apply H2, Hi.
  - intros i Hi. apply (solo_dom _ _ _ _ _ _ Hs). auto.
  - intros i Hi. apply (solo_dom _ _ _ _ _ _ Hs). auto.
  - intros i Hi. apply (solo_dom _ _ _ _ _ _ Hs). auto.
Qed.

(** ** setRowOffsets *)
Definition ev_off (t : nat) : list ev := mjoin ((fun i => [ERd (aTn, i)]) <$> seq 0 t).
Definition ev_rp (t : nat) : list ev :=
  mjoin ((fun i => [EWr (aRp, i) (VN (pre i)); ERd (aNv, i)]) <$> seq (cut t) (cut (t + 1) - cut t)).
Definition ev_last (t : nat) : list ev := if t =? nt - 1 then [EWr (aRp, n) (VN (pre n))] else [].
Definition ev_sro (t : nat) : list ev := ev_off t ++ ev_rp t ++ ev_last t.

Lemma solo_rdN (m : mem) l x : m !! l = Some (VN x) -> solo m (rdN l) [ERd l] x m.
Proof. intros Hm. unfold rdN. eapply solo_rd; [exact Hm|]. constructor. Qed.

Lemma setRowOffsets_solo m t : t < nt -> mem3 m ->
  exists m', solo m (setRowOffsets n nt (cut t) (cut (t + 1)) t) (ev_sro t) tt m' /\ mem3 m' /\
    (cut t < cut (t + 1) -> m' !! (aRp, cut t) = Some (VN (pre (cut t)))).
Proof.
  intros Ht Hm. pose proof (Hcutm t Ht) as Hc. pose proof (cut_n (t + 1) ltac:(lia)) as Hcn.
  unfold setRowOffsets.
  (* offset of the thread *)
  destruct (solo_pfor_n (fun i s m' => s = pre (cut i) /\ m' = m) (fun i => [ERd (aTn, i)])
    (fun i acc => pbind (rdN (aTn, i)) (fun x => Ret (acc + x))) t 0 0 m) as (s1 & m1 & Hs1 & -> & ->).
  { intros i s m' Hi [-> ->]. exists (pre (cut (S i))), m. split; [|auto].
    replace [ERd (aTn, i)] with ([ERd (aTn, i)] ++ @nil ev) by reflexivity.
    eapply solo_bind; [apply solo_rdN, (m3_tn _ Hm); lia|].
    replace (pre (cut i) + tnv i) with (pre (cut (S i))); [constructor|].
    unfold tnv. rewrite Nat.add_1_r. pose proof (pcut_le i ltac:(lia)) as Hp. rewrite Nat.add_1_r in Hp. lia. }
  { rewrite Hcut0. auto. }
  simpl in Hs1.
  (* own rows *)
  set (body := fun i off => Wr (aRp, i) (VN off) (pbind (rdN (aNv, i)) (fun x => Ret (off + x)))).
  destruct (solo_pfor_n (fun i s m' => s = pre i /\ mem3 m' /\ (cut t < i -> m' !! (aRp, cut t) = Some (VN (pre (cut t)))))
    (fun i => [EWr (aRp, i) (VN (pre i)); ERd (aNv, i)]) body (cut (t + 1) - cut t) (cut t) (pre (cut t)) m) as (s2 & m2 & Hs2 & -> & Hm2 & Hk2).
  { intros i s m' Hi (-> & Hm' & Hk). exists (pre (S i)), (<[(aRp, i) := VN (pre i)]> m').
    assert (Hsolo : solo m' (body i (pre i)) [EWr (aRp, i) (VN (pre i)); ERd (aNv, i)] (pre (S i)) (<[(aRp, i) := VN (pre i)]> m')).
    { unfold body. apply solo_wr; [apply (m3_rp _ Hm'); lia|].
      replace [ERd (aNv, i)] with ([ERd (aNv, i)] ++ @nil ev) by reflexivity.
      eapply solo_bind; [apply solo_rdN; rewrite lookup_insert_ne by (unfold aRp, aNv; congruence); apply (m3_nv _ Hm'); lia|].
      rewrite <- pre_S. constructor. }
    split; [exact Hsolo|]. split; [reflexivity|]. split.
    - eapply mem3_solo; [exact Hsolo|exact Hm'|]. intros a j v Hin. left.
      apply elem_of_cons in Hin as [Hin|Hin]; [injection Hin as -> -> ->; split; discriminate|].
      apply elem_of_list_singleton in Hin. discriminate.
    - intros Hlt. destruct (decide (i = cut t)) as [->|Hne]; [apply lookup_insert|].
      rewrite lookup_insert_ne by congruence. apply Hk. lia. }
  { split; [reflexivity|]. split; [exact Hm|]. lia. }
  replace (cut t + (cut (t + 1) - cut t)) with (cut (t + 1)) in * by lia.
  assert (Hlast : exists m3, solo m2 (if t =? nt - 1 then Wr (aRp, n) (VN (pre (cut (t + 1)))) (Ret tt) else Ret tt) (ev_last t) tt m3 /\
    mem3 m3 /\ (cut t < cut (t + 1) -> m3 !! (aRp, cut t) = Some (VN (pre (cut t))))).
  { unfold ev_last. destruct (Nat.eqb_spec t (nt - 1)) as [->|Hne].
    - replace (nt - 1 + 1) with nt in * by lia. rewrite Hcutn.
      assert (Hs : solo m2 (Wr (aRp, n) (VN (pre n)) (Ret tt)) [EWr (aRp, n) (VN (pre n))] tt (<[(aRp, n) := VN (pre n)]> m2)).
      { apply solo_wr; [apply (m3_rp _ Hm2); lia|constructor]. }
      eexists. split; [exact Hs|]. split.
      + eapply mem3_solo; [exact Hs|exact Hm2|]. intros a j v Hin. apply elem_of_list_singleton in Hin. injection Hin as -> -> ->.
        left. split; discriminate.
      + intros Hlt. rewrite lookup_insert_ne by (intros [=]; lia). apply Hk2. rewrite Hcutn. exact Hlt.
    - exists m2. split; [constructor|]. auto. }
  destruct Hlast as (m3 & Hs3 & Hm3 & Hk3). exists m3. split; [|auto].
  unfold ev_sro, ev_off, ev_rp. eapply solo_bind; [unfold pfor; rewrite Nat.sub_0_r; exact Hs1|].
  eapply solo_bind; [exact Hs2|]. exact Hs3.
Qed.

(** ** Copying *)


(** Read of [C.rowptr[rowBegin]]: matters only when the thread has rows. *)
Definition ev_pos (t : nat) : ev := if cut t <? cut (t + 1) then ERd (aRp, cut t) else EAny (aRp, cut t).

Lemma solo_pos {R} m t (k : val V -> tprog R) evs r m' : t < nt -> mem3 m ->
  (cut t < cut (t + 1) -> m !! (aRp, cut t) = Some (VN (pre (cut t)))) ->
  (forall v, (cut t < cut (t + 1) -> v = VN (pre (cut t))) -> solo m (k v) evs r m') ->
  solo m (Rd (aRp, cut t) k) (ev_pos t :: evs) r m'.
Proof.
  intros Ht Hm Hk Hv. unfold ev_pos. destruct (Nat.ltb_spec (cut t) (cut (t + 1))) as [Hlt|Hge].
  - eapply solo_rd; [apply Hk, Hlt|]. apply Hv. reflexivity.
  - apply solo_any; [apply (m3_rp _ Hm), cut_n; lia|]. intros v. apply Hv. lia.
Qed.

Lemma tout_nil t : t < nt -> ~ cut t < cut (t + 1) -> tout t = [].
Proof. intros Ht H. apply rowsOf_nil. lia. Qed.

Definition cis (l : list (nat * V)) : list (val V) := (fun e => VN (fst e)) <$> l.
Definition vas (l : list (nat * V)) : list (val V) := (fun e => VV (snd e)) <$> l.

Lemma copyTo_solo a m t (l : list (val V)) v : t < nt -> mem3 m -> a = aCi \/ a = aVa -> length l = tnv t ->
  (cut t < cut (t + 1) -> v = VN (pre (cut t))) ->
  exists m', solo m (copyTo a v l) (ev_store a (pre (cut t)) l) tt m'.
Proof.
  intros Ht Hm Ha Hl Hv. destruct l as [|x l]; [exists m; constructor|].
  assert (Hlt : cut t < cut (t + 1)).
  { destruct (decide (cut t < cut (t + 1))) as [|Hge]; [assumption|]. exfalso. pose proof (tout_length t Ht) as H1.
    rewrite (tout_nil t Ht Hge) in H1. simpl in *. lia. }
  rewrite (Hv Hlt). apply storeAt_solo. intros k Hk. rewrite Hl in Hk.
  assert (Hp : pre (cut t) + k < pre n). { pose proof (pcut_n (t + 1) ltac:(lia)). unfold tnv in Hk. lia. }
  destruct Ha as [-> | ->]; [apply (m3_ci _ Hm)|apply (m3_va _ Hm)]; exact Hp.
Qed.

Lemma ev_store_own a t l : a = aCi \/ a = aVa -> t < nt -> length l = tnv t ->
  (forall k v, l !! k = Some v -> wvf (a, pre (cut t) + k) = Some v) ->
  forall b v, EWr b v ∈ ev_store a (pre (cut t)) l -> own3 t b /\ wvf b = Some v.
Proof.
  intros Ha Ht Hl Hw [b i] v Hin. apply ev_store_elem in Hin as (-> & Hle & Hlk). split.
  - right. right. split; [exact Ha|]. apply lookup_lt_Some in Hlk. rewrite Hl in Hlk. unfold tnv in Hlk. lia.
  - apply Hw in Hlk. replace (pre (cut t) + (i - pre (cut t))) with i in Hlk by lia. exact Hlk.
Qed.

Lemma tout_lookup t k e : t < nt -> tout t !! k = Some e -> rowsOf 0 n !! (pre (cut t) + k) = Some e.
Proof.
  intros Ht Hk. pose proof (lookup_lt_Some _ _ _ Hk) as Hlt. rewrite tout_length in Hlt by exact Ht. unfold tnv in Hlt.
  rewrite (rowsOf_lookup rspec (cut t) (cut (t + 1)) n); [|split; [apply Hcutm, Ht|apply cut_n; lia]|lia].
  replace (pre (cut t) + k - pre (cut t)) with k by lia. exact Hk.
Qed.
Lemma wvf_ci t k v : t < nt -> cis (tout t) !! k = Some v -> wvf (aCi, pre (cut t) + k) = Some v.
Proof.
  intros Ht Hk. unfold cis in Hk. rewrite list_lookup_fmap in Hk. destruct (tout t !! k) as [e|] eqn:E; [|discriminate].
  apply (tout_lookup t k e Ht) in E. unfold wvf. simpl. rewrite E. exact Hk.
Qed.
Lemma wvf_va t k v : t < nt -> vas (tout t) !! k = Some v -> wvf (aVa, pre (cut t) + k) = Some v.
Proof.
  intros Ht Hk. unfold vas in Hk. rewrite list_lookup_fmap in Hk. destruct (tout t !! k) as [e|] eqn:E; [|discriminate].
  apply (tout_lookup t k e Ht) in E. unfold wvf. simpl. rewrite E. exact Hk.
Qed.

(** ** Who writes and reads what in setRowOffsets *)
Lemma ev_sro_wr t l v : t < nt -> EWr l v ∈ ev_sro t -> own3 t l /\ wvf l = Some v.
Proof.
  intros Ht. unfold ev_sro, ev_off, ev_rp, ev_last. rewrite !elem_of_app, !elem_of_events. intros [(i & _ & Hin)|[(i & Hi & Hin)|Hin]].
  - apply elem_of_list_singleton in Hin. discriminate.
  - apply elem_of_cons in Hin as [Hin|Hin]; [|apply elem_of_list_singleton in Hin; discriminate]. injection Hin as -> ->.
    split; [|reflexivity]. right. left. split; [reflexivity|]. left. lia.
  - destruct (Nat.eqb_spec t (nt - 1)) as [->|]; [|inversion Hin]. apply elem_of_list_singleton in Hin. injection Hin as -> ->.
    split; [|reflexivity]. right. left. auto.
Qed.
Lemma ev_sro_rd t u l : t < nt -> u < nt -> ERd l ∈ ev_sro t -> own3 u l -> u = t.
Proof.
  intros Ht Hu. unfold ev_sro, ev_off, ev_rp, ev_last. rewrite !elem_of_app, !elem_of_events. intros [(i & Hi & Hin)|[(i & Hi & Hin)|Hin]].
  - apply elem_of_list_singleton in Hin. injection Hin as ->. intros [[H _]|[[H _]|[[H|H] _]]]; discriminate.
  - apply elem_of_cons in Hin as [Hin|Hin]; [discriminate|]. apply elem_of_list_singleton in Hin. injection Hin as ->.
    intros [[_ H]|[[H _]|[[H|H] _]]]; try discriminate. eapply cut_disj; eauto. lia.
  - destruct (Nat.eqb_spec t (nt - 1)) as [->|]; [|inversion Hin]. apply elem_of_list_singleton in Hin. discriminate.
Qed.
Lemma ev_sro_any t l : EAny l ∉ ev_sro t.
Proof.
  unfold ev_sro, ev_off, ev_rp, ev_last. rewrite !elem_of_app, !elem_of_events. intros [(i & Hi & Hin)|[(i & Hi & Hin)|Hin]].
  - apply elem_of_list_singleton in Hin. discriminate.
  - apply elem_of_cons in Hin as [Hin|Hin]; [discriminate|]. apply elem_of_list_singleton in Hin. discriminate.
  - destruct (t =? nt - 1); [|inversion Hin]. apply elem_of_list_singleton in Hin. discriminate.
Qed.
Lemma ev_pos_rd t u l : t < nt -> u < nt -> ERd l = ev_pos t -> own3 u l -> u = t.
Proof.
  intros Ht Hu. unfold ev_pos. destruct (Nat.ltb_spec (cut t) (cut (t + 1))) as [Hlt|]; [|discriminate]. intros [= ->].
  pose proof (cut_n (t + 1) ltac:(lia)). intros [[H1 _]|[[_ [H1|[H1 _]]]|[[H1|H1] _]]]; try discriminate; [|lia].
  eapply cut_disj; eauto.
Qed.

(** Every cell of the new arrays is written by somebody. *)
Lemma rp_written i : i <= n -> exists t, t < nt /\ EWr (aRp, i) (VN (pre i)) ∈ ev_sro t.
Proof.
  intros Hi. destruct (decide (i = n)) as [->|Hne].
  - exists (nt - 1). split; [lia|]. unfold ev_sro, ev_last. rewrite Nat.eqb_refl, !elem_of_app. right. right. left.
  - destruct (cut_cover cut nt i Hcut0 ltac:(lia)) as (t & Ht & Hc). exists t. split; [exact Ht|].
    unfold ev_sro, ev_rp. rewrite !elem_of_app. right. left. apply elem_of_events. exists i. split; [lia|]. left.
Qed.
Lemma pcut_cover p : p < pre n -> exists t, t < nt /\ pre (cut t) <= p < pre (cut (t + 1)).
Proof.
  intros Hp. apply (cut_cover (fun t => pre (cut t)) nt p); [rewrite Hcut0; reflexivity|rewrite Hcutn; exact Hp].
Qed.
Lemma out_written p e : rowsOf 0 n !! p = Some e -> exists t, t < nt /\
  EWr (aCi, p) (VN (fst e)) ∈ ev_store aCi (pre (cut t)) (cis (tout t)) /\
  EWr (aVa, p) (VV (snd e)) ∈ ev_store aVa (pre (cut t)) (vas (tout t)).
Proof.
  intros Hp. assert (Hlt : p < pre n).
  { apply lookup_lt_Some in Hp. rewrite rowsOf_length in Hp by lia. rewrite pre_0 in Hp. lia. }
  destruct (pcut_cover p Hlt) as (t & Ht & Hc). exists t. split; [exact Ht|].
  rewrite (rowsOf_lookup rspec (cut t) (cut (t + 1)) n) in Hp; [|split; [apply Hcutm, Ht|apply cut_n; lia]|lia].
  split; apply ev_store_elem; (split; [reflexivity|]); (split; [lia|]); unfold cis, vas; rewrite list_lookup_fmap;
    unfold tout; rewrite Hp; reflexivity.
Qed.

(** ** Reading the result *)

Lemma outMatrix_ok (e : gmap nat (obj V)) (m : mem) i nc :
  e !! i = Some (OFresh n nc (pre n)) ->
  (forall j, j <= n -> m !! (aRp, j) = Some (VN (pre j))) ->
  (forall p x, rowsOf 0 n !! p = Some x -> m !! (aCi, p) = Some (VN (fst x)) /\ m !! (aVa, p) = Some (VV (snd x))) ->
  outMatrix e m i = Some (assemble rspec n nc).
Proof.
  intros He Hr Hc. unfold outMatrix. rewrite He.
  assert (L : length (rowsOf 0 n) = pre n) by (rewrite rowsOf_length, pre_0 by lia; lia).
  replace (n + 1) with (length (pre <$> seq 0 (n + 1))) by (rewrite fmap_length, seq_length; reflexivity).
  rewrite readNs_ok.
  - replace (readNs m aCi (pre n)) with (Some (fst <$> rowsOf 0 n)).
    + replace (readVs m aVa (pre n)) with (Some (snd <$> rowsOf 0 n)); [reflexivity|].
      symmetry. rewrite <- L, <- (fmap_length snd). apply readVs_ok. intros p x Hp. rewrite list_lookup_fmap in Hp.
      destruct (rowsOf 0 n !! p) as [y|] eqn:E; [|discriminate]. injection Hp as <-. apply (Hc p y E).
    + symmetry. rewrite <- L, <- (fmap_length fst). apply readNs_ok. intros p x Hp. rewrite list_lookup_fmap in Hp.
      destruct (rowsOf 0 n !! p) as [y|] eqn:E; [|discriminate]. injection Hp as <-. apply (Hc p y E).
  - intros j x Hj. rewrite list_lookup_fmap in Hj. destruct (seq 0 (n + 1) !! j) as [y|] eqn:E; [|discriminate].
    apply lookup_seq in E as [-> Hlt]. injection Hj as <-. apply Hr. lia.
Qed.

(** ** initC *)
Lemma initC_ok (iA iB iC : nat) (e : gmap nat (obj V)) (m : mem) A nc :
  e !! iA = Some (OMat A) -> colsOf e iB = Ok nc -> rows A = n ->
  (forall i, i < n -> m !! (aNv, i) = Some (VN (length (rspec i)))) ->
  (forall t, t < nt -> m !! (aTn, t) = Some (VN (tnv t))) ->
  exists m', initC iA iB iC nt e m = Ok (<[iC := OFresh n nc (pre n)]> e, m') /\ mem3 m'.
Proof.
  intros HA HB Hn Hnv Htn. unfold initC, deref. rewrite HA. cbn [bind]. rewrite HB. cbn [bind].
  destruct (for_inv (fun t s => s = pre (cut t)) (fun t s => match m !! (aTn, t) with Some (VN x) => Ok (s + x) | Some _ => Err Uninit | None => Err OutOfBounds end) 0 nt 0)
    as (s & -> & ->).
  - lia.
  - rewrite Hcut0. reflexivity.
  - intros t s Ht ->. rewrite Htn by lia. eexists. split; [reflexivity|]. unfold tnv. pose proof (pcut_le t ltac:(lia)). lia.
  - cbn [bind]. rewrite Hcutn, Hn. eexists. split; [reflexivity|].
    constructor.
    + intros i Hi. rewrite lookup_union_r; [apply Hnv, Hi|]. rewrite !lookup_union_None, !cells_lookup. auto.
    + intros i Hi. rewrite lookup_union_r; [apply Htn, Hi|]. rewrite !lookup_union_None, !cells_lookup. auto.
    + intros i Hi. rewrite !lookup_union, !cells_lookup. simpl. rewrite lookup_replicate_2 by lia.
      destruct (m !! _); simpl; eauto.
    + intros i Hi. rewrite !lookup_union, !cells_lookup. simpl. rewrite lookup_replicate_2 by lia.
      destruct (m !! _); simpl; eauto.
    + intros i Hi. rewrite !lookup_union, !cells_lookup. simpl. rewrite lookup_replicate_2 by lia.
      destruct (m !! _); simpl; eauto.
Qed.

Lemma startMem_nv i : i < n -> is_Some (startMem (V := V) n nt !! (aNv, i)).
Proof. intros H. unfold startMem. rewrite lookup_union, !cells_lookup. simpl. rewrite lookup_replicate_2 by lia. simpl. eauto. Qed.
Lemma startMem_tn t : t < nt -> is_Some (startMem (V := V) n nt !! (aTn, t)).
Proof. intros H. unfold startMem. rewrite lookup_union, !cells_lookup. simpl. rewrite lookup_replicate_2 by lia. simpl. eauto. Qed.
End Out.

Lemma initC_keep {V} (nt iA iB iC : nat) (e e' : gmap nat (obj V)) (m m' : gmap loc (val V)) : initC iA iB iC nt e m = Ok (e', m') ->
  forall a i, 4 < a -> m' !! (a, i) = m !! (a, i).
Proof.
  unfold initC. destruct (deref e iA) as [A|]; [|discriminate]. cbn [bind]. destruct (colsOf e iB) as [nc|]; [|discriminate]. cbn [bind].
  destruct (for_ _ _ _ _) as [nn|]; [|discriminate]. cbn [bind]. intros E a i Ha. injection E as _ <-.
  rewrite lookup_union_r; [reflexivity|]. rewrite !lookup_union_None, !cells_lookup.
  unfold aRp, aCi, aVa. repeat rewrite decide_False by lia. auto.
Qed.
