(** Threads that reserve space in blocks by fetch-and-add and then fill it: whatever the interleaving, every block ends up holding
    the chunks meant for it, in some order, and nothing else. *)
From Verif Require Export OuterModel.
From Verif Require Import BaseProofs ConcProofs.
From Verif Require Import Base.

Section M.
Context {X : Type}.
Notation put := (nat * nat * X)%type.
Notation chunk := (nat * list X)%type.

(** [p] has the stores [ps] still to make in the space it has reserved, then writes the chunks [chs] and ends with [r]. *)
Inductive runs {R} : fprog X R -> list put -> list chunk -> R -> Prop :=
| runs_ret r : runs (FRet r) [] [] r
| runs_put b p x k ps chs r : runs k ps chs r -> runs (FPut b p x k) ((b, p, x) :: ps) chs r
| runs_fadd b n k xs chs r : length xs = n -> (forall v, runs (k v) (imap (fun q x => (b, v + q, x)) xs) chs r) ->
    runs (FFadd b n k) [] ((b, xs) :: chs) r.

Lemma runs_bind {R S} (p : fprog X R) (k : R -> fprog X S) ps c1 r c2 s :
  runs p ps c1 r -> runs (k r) [] c2 s -> runs (fbind p k) ps (c1 ++ c2) s.
Proof.
  intros H Hk. induction H; simpl.
  - exact Hk.
  - constructor. auto.
  - constructor; auto.
Qed.

Lemma runs_puts {R S} (p : fprog X R) (k : R -> fprog X S) ps r ps2 c2 s :
  runs p ps [] r -> runs (k r) ps2 c2 s -> runs (fbind p k) (ps ++ ps2) c2 s.
Proof.
  intros H Hk. remember [] as c eqn:Ec. induction H; simpl.
  - exact Hk.
  - constructor. auto.
  - discriminate.
Qed.

Lemma runs_lift {R S} (r : res R) (k : R -> fprog X S) x ps c s : r = Ok x -> runs (k x) ps c s -> runs (fbind (flift r) k) ps c s.
Proof. intros -> H. exact H. Qed.

Lemma runs_ffor_n {S} (I : nat -> list chunk -> S -> Prop) (body : nat -> S -> fprog X S) n lo s c0 :
  I lo c0 s ->
  (forall i c s, lo <= i < lo + n -> I i c s -> exists c' s', runs (body i s) [] c' s' /\ I (i + 1) (c ++ c') s') ->
  exists c s', runs (ffor_n n lo body s) [] c s' /\ I (lo + n) (c0 ++ c) s'.
Proof.
  revert lo s c0. induction n as [|n IH]; intros lo s c0 H0 Hs; simpl.
  - exists [], s. rewrite Nat.add_0_r, app_nil_r. split; [constructor|exact H0].
  - destruct (Hs lo c0 s) as (c' & s' & Hr & Hi); [lia|exact H0|].
    replace (lo + 1) with (Datatypes.S lo) in Hi by lia.
    destruct (IH (Datatypes.S lo) s' (c0 ++ c') Hi) as (c2 & s2 & Hr2 & Hi2).
    { intros i c s1 Hi'. apply Hs. lia. }
    exists (c' ++ c2), s2. split; [eapply runs_bind; eassumption|]. rewrite app_assoc. replace (lo + Datatypes.S n) with (Datatypes.S lo + n) by lia. exact Hi2.
Qed.

Lemma runs_ffor {S} (I : nat -> list chunk -> S -> Prop) (body : nat -> S -> fprog X S) lo hi s c0 : lo <= hi ->
  I lo c0 s ->
  (forall i c s, lo <= i < hi -> I i c s -> exists c' s', runs (body i s) [] c' s' /\ I (i + 1) (c ++ c') s') ->
  exists c s', runs (ffor lo hi body s) [] c s' /\ I hi (c0 ++ c) s'.
Proof.
  intros Hl H0 Hs. destruct (runs_ffor_n I body (hi - lo) lo s c0 H0) as (c & s' & Hr & Hi).
  - intros i c s1 Hi. apply Hs. lia.
  - replace (lo + (hi - lo)) with hi in Hi by lia. eauto.
Qed.

(** The elements of the chunks for block [b] *)
Definition ofBlock (b : nat) (chs : list chunk) : list X := mjoin ((fun ch => if ch.1 =? b then ch.2 else []) <$> chs).
Lemma ofBlock_cons b ch chs : ofBlock b (ch :: chs) = (if ch.1 =? b then ch.2 else []) ++ ofBlock b chs.
Proof. unfold ofBlock. rewrite fmap_cons, mjoin_cons. reflexivity. Qed.
Lemma ofBlock_app b c1 c2 : ofBlock b (c1 ++ c2) = ofBlock b c1 ++ ofBlock b c2.
Proof. unfold ofBlock. rewrite fmap_app, mjoin_app. reflexivity. Qed.

Notation ghost := (list put * list chunk)%type.
Definition work (g : ghost) : nat := length g.1 + sum_list_with (fun ch => S (length ch.2)) g.2.
Definition left_ (b : nat) (gs : list ghost) : list X := mjoin ((fun g => ofBlock b g.2) <$> gs).
Definition pends (gs : list ghost) : list put := mjoin (fst <$> gs).

Lemma insert_split {A} (l : list A) t x y : l !! t = Some x -> exists l1 l2, l = l1 ++ x :: l2 /\ <[t := y]> l = l1 ++ y :: l2.
Proof.
  intros H. exists (take t l), (drop (S t) l). split; [symmetry; apply take_drop_middle, H|].
  apply insert_take_drop. eapply lookup_lt_Some, H.
Qed.

Lemma work_insert gs t g g' : gs !! t = Some g -> work g = S (work g') -> sum_list_with work gs = S (sum_list_with work (<[t := g']> gs)).
Proof.
  intros H E. destruct (insert_split gs t g g' H) as (l1 & l2 & -> & ->). rewrite !sum_list_with_app. simpl. lia.
Qed.

Section Inv.
(** What every block is to hold, up to order. *)
Variable All : list (list X).

Record inv (c : list nat) (m : list (list (option X))) (ps : list (fprog X unit)) (G : list (list X)) (gs : list ghost) : Prop := {
  iv_run : Forall2 (fun p g => runs p g.1 g.2 tt) ps gs;
  iv_cnt : c = length <$> G;
  iv_all : Forall2 (fun _ _ => True) G All;
  iv_perm : forall b l, G !! b = Some l -> exists a, All !! b = Some a /\ l ++ left_ b gs ≡ₚ a;
  iv_dom : forall g ch, g ∈ gs -> ch ∈ g.2 -> ch.1 < length All;
  iv_mlen : length <$> m = length <$> All;
  iv_cell : forall b l p x, G !! b = Some l -> l !! p = Some x ->
    (exists blk, m !! b = Some blk /\ blk !! p = Some (Some x)) \/ (b, p, x) ∈ pends gs;
  iv_pend : forall b p x, (b, p, x) ∈ pends gs -> exists l, G !! b = Some l /\ l !! p = Some x;
  iv_nodup : NoDup (fst <$> pends gs) }.

Lemma inv_len c m ps G gs : inv c m ps G gs -> length c = length All /\ length m = length All /\ length G = length All.
Proof.
  intros H. pose proof (Forall2_length _ _ _ (iv_all _ _ _ _ _ H)) as E. split; [|split].
  - rewrite (iv_cnt _ _ _ _ _ H), fmap_length. exact E.
  - rewrite <- (fmap_length length m), (iv_mlen _ _ _ _ _ H). apply fmap_length.
  - exact E.
Qed.

Lemma left_split b l1 g l2 : left_ b (l1 ++ g :: l2) = left_ b l1 ++ ofBlock b g.2 ++ left_ b l2.
Proof. unfold left_. rewrite fmap_app, fmap_cons, mjoin_app, mjoin_cons. reflexivity. Qed.
Lemma pends_split l1 g l2 : pends (l1 ++ g :: l2) = pends l1 ++ g.1 ++ pends l2.
Proof. unfold pends. rewrite fmap_app, fmap_cons, mjoin_app, mjoin_cons. reflexivity. Qed.

Lemma inv_bound c m ps G gs b l a blk : inv c m ps G gs -> G !! b = Some l -> All !! b = Some a -> m !! b = Some blk -> length l <= length blk.
Proof.
  intros H HG HA Hm. destruct (iv_perm _ _ _ _ _ H _ _ HG) as (a' & HA' & Hp). rewrite HA in HA'. injection HA' as <-.
  assert (E : length blk = length a).
  { pose proof (iv_mlen _ _ _ _ _ H) as E. apply (f_equal (fun z => z !! b)) in E. rewrite !list_lookup_fmap, Hm, HA in E. simpl in E. congruence. }
  apply Permutation_length in Hp. rewrite app_length in Hp. lia.
Qed.

Lemma imap_fst (b v : nat) (xs : list X) j0 : fst <$> imap (fun q x => (b, v + (j0 + q), x)) xs = (fun q => (b, q)) <$> seq (v + j0) (length xs).
Proof.
  revert j0. induction xs as [|x xs IH]; intros j0; [reflexivity|]. rewrite imap_cons, fmap_cons. simpl length. rewrite <- cons_seq, fmap_cons.
  f_equal; [cbn; f_equal; lia|].
  specialize (IH (S j0)). replace (v + S j0) with (S (v + j0)) in IH by lia. rewrite <- IH. f_equal. apply imap_ext. intros i y _. cbn. do 2 f_equal. lia.
Qed.
Lemma imap_fst0 (b v : nat) (xs : list X) : fst <$> imap (fun q x => (b, v + q, x)) xs = (fun q => (b, q)) <$> seq v (length xs).
Proof. pose proof (imap_fst b v xs 0) as E. rewrite Nat.add_0_r in E. exact E. Qed.

Lemma inv_fadd c m ps G gs t b n k v : inv c m ps G gs -> ps !! t = Some (FFadd b n k) -> c !! b = Some v ->
  exists G' gs', inv (<[b := v + n]> c) m (<[t := k v]> ps) G' gs' /\ sum_list_with work gs = S (sum_list_with work gs').
Proof.
  intros H Hp Hc. destruct (Forall2_lookup_l _ _ _ _ _ (iv_run _ _ _ _ _ H) Hp) as ([pd chs] & Hg & Hr). cbn [fst snd] in Hr.
  inversion Hr as [| |b' n' k' xs chs' r' Hlen Hk]; subst. clear Hr. rename chs' into chs.
  pose proof Hc as Hc'. rewrite (iv_cnt _ _ _ _ _ H), list_lookup_fmap in Hc'. destruct (G !! b) as [l|] eqn:HG; [|discriminate]. cbn in Hc'. injection Hc' as Ev.
  set (pd' := imap (fun q x => (b, v + q, x)) xs).
  exists (<[b := l ++ xs]> G), (<[t := (pd', chs)]> gs).
  assert (Hbl : b < length G) by (eapply lookup_lt_Some, HG).
  destruct (insert_split gs t _ (pd', chs) Hg) as (g1 & g2 & Eg & Eg').
  split.
  2:{ apply (work_insert _ _ _ _ Hg). unfold work, pd'. cbn. rewrite imap_length. lia. }
  assert (Hpd : forall b' p x, (b', p, x) ∈ pd' <-> b' = b /\ exists q, p = v + q /\ xs !! q = Some x).
  { intros b' p x. unfold pd'. rewrite elem_of_list_lookup. split.
    - intros [i Hi]. rewrite list_lookup_imap in Hi. destruct (xs !! i) as [y|] eqn:E; [|discriminate]. cbn in Hi. injection Hi as <- <- <-. eauto.
    - intros [-> (q & -> & Hq)]. exists q. rewrite list_lookup_imap, Hq. reflexivity. }
  rewrite Eg'. constructor.
  - rewrite <- Eg'. apply Forall2_insert; [apply (iv_run _ _ _ _ _ H)|]. cbn [fst snd]. apply Hk.
  - rewrite list_fmap_insert, app_length, Ev. f_equal. apply (iv_cnt _ _ _ _ _ H).
  - apply Forall2_same_length_lookup_2; [|auto]. rewrite insert_length. eapply Forall2_length, (iv_all _ _ _ _ _ H).
  - intros b' l' Hb'. destruct (decide (b' = b)) as [->|Hne].
    + rewrite list_lookup_insert in Hb' by exact Hbl. injection Hb' as <-.
      destruct (iv_perm _ _ _ _ _ H _ _ HG) as (a & Ha & Hpm). exists a. split; [exact Ha|]. rewrite <- Hpm, Eg, !left_split. cbn [snd].
      rewrite ofBlock_cons. cbn [fst snd]. rewrite Nat.eqb_refl. rewrite !(assoc_L (++)).
      do 2 apply Permutation_app_tail. rewrite <- !(assoc_L (++)). apply Permutation_app_head, Permutation_app_comm.
    + rewrite list_lookup_insert_ne in Hb' by congruence.
      destruct (iv_perm _ _ _ _ _ H _ _ Hb') as (a & Ha & Hpm). exists a. split; [exact Ha|]. rewrite <- Hpm, Eg, !left_split. cbn [snd].
      rewrite ofBlock_cons. cbn [fst snd]. destruct (Nat.eqb_spec b b'); [congruence|]. reflexivity.
  - intros g ch Hin Hch. apply elem_of_app in Hin as [Hin|Hin]; [|apply elem_of_cons in Hin as [->|Hin]].
    + apply (iv_dom _ _ _ _ _ H g ch); [rewrite Eg; apply elem_of_app; auto|exact Hch].
    + apply (iv_dom _ _ _ _ _ H ([], (b, xs) :: chs) ch); [rewrite Eg; apply elem_of_app; right; left|right; exact Hch].
    + apply (iv_dom _ _ _ _ _ H g ch); [rewrite Eg; apply elem_of_app; right; right; exact Hin|exact Hch].
  - apply (iv_mlen _ _ _ _ _ H).
  - intros b' l' p x Hb' Hx. rewrite pends_split. cbn [fst]. destruct (decide (b' = b)) as [->|Hne].
    + rewrite list_lookup_insert in Hb' by exact Hbl. injection Hb' as <-. apply lookup_app_Some in Hx as [Hx|[Hge Hx]].
      * destruct (iv_cell _ _ _ _ _ H _ _ _ _ HG Hx) as [Hx'|Hx']; [left; exact Hx'|right]. rewrite Eg, pends_split in Hx'. cbn [fst] in Hx'. set_solver.
      * right. apply elem_of_app. right. apply elem_of_app. left. apply Hpd. split; [reflexivity|]. exists (p - length l). split; [lia|exact Hx].
    + rewrite list_lookup_insert_ne in Hb' by congruence.
      destruct (iv_cell _ _ _ _ _ H _ _ _ _ Hb' Hx) as [Hx'|Hx']; [left; exact Hx'|right]. rewrite Eg, pends_split in Hx'. cbn [fst] in Hx'. set_solver.
  - intros b' p x Hin. rewrite pends_split in Hin. cbn [fst] in Hin.
    assert (Hcase : (b', p, x) ∈ pends gs \/ (b', p, x) ∈ pd').
    { rewrite Eg, pends_split. cbn [fst]. set_solver. }
    destruct Hcase as [Hin'|Hin'].
    + destruct (iv_pend _ _ _ _ _ H _ _ _ Hin') as (l' & Hl' & Hx). destruct (decide (b' = b)) as [->|Hne].
      * rewrite HG in Hl'. injection Hl' as <-. exists (l ++ xs). split; [apply list_lookup_insert, Hbl|]. apply lookup_app_l_Some, Hx.
      * exists l'. split; [rewrite list_lookup_insert_ne by congruence; exact Hl'|exact Hx].
    + apply Hpd in Hin' as [-> (q & -> & Hq)]. exists (l ++ xs). split; [apply list_lookup_insert, Hbl|].
      rewrite lookup_app_r by lia. rewrite <- Ev. replace (length l + q - length l) with q by lia. exact Hq.
  - rewrite pends_split. cbn [fst]. pose proof (iv_nodup _ _ _ _ _ H) as Hnd. rewrite Eg, pends_split in Hnd. cbn [fst] in Hnd. rewrite app_nil_l, fmap_app in Hnd.
    rewrite !fmap_app.
    assert (Epm : (fst <$> pends g1) ++ (fst <$> pd') ++ (fst <$> pends g2) ≡ₚ (fst <$> pd') ++ (fst <$> pends g1) ++ (fst <$> pends g2)).
    { rewrite !(assoc_L (++)). apply Permutation_app_tail, Permutation_app_comm. }
    rewrite Epm. apply NoDup_app. split; [|split; [|exact Hnd]].
    + unfold pd'. rewrite imap_fst0. apply NoDup_fmap_2; [intros ? ? E; injection E; auto|apply NoDup_seq].
    + intros [b' p] Hin1 Hin2. apply elem_of_list_fmap in Hin1 as ([[b1 p1] x1] & E1 & Hin1). cbn in E1. injection E1 as <- <-.
      apply Hpd in Hin1 as [-> (q & -> & Hq)].
      assert (Hin3 : (b, v + q) ∈ (fst <$> pends gs)) by (rewrite Eg, pends_split; cbn [fst]; rewrite app_nil_l, fmap_app; exact Hin2).
      apply elem_of_list_fmap in Hin3 as ([[b1 p1] x2] & E1 & Hin3). cbn in E1. injection E1 as <- <-.
      destruct (iv_pend _ _ _ _ _ H _ _ _ Hin3) as (l' & Hl' & Hx). rewrite HG in Hl'. injection Hl' as <-. apply lookup_lt_Some in Hx. lia.
Qed.

Lemma inv_put c m ps G gs t b p x k blk : inv c m ps G gs -> ps !! t = Some (FPut b p x k) -> m !! b = Some blk ->
  exists gs', inv c (<[b := <[p := Some x]> blk]> m) (<[t := k]> ps) G gs' /\ sum_list_with work gs = S (sum_list_with work gs').
Proof.
  intros H Hp Hm. destruct (Forall2_lookup_l _ _ _ _ _ (iv_run _ _ _ _ _ H) Hp) as ([pd chs] & Hg & Hr). cbn [fst snd] in Hr.
  inversion Hr as [|b' p' x' k' pd' chs' r' Hk|]; subst. clear Hr.
  exists (<[t := (pd', chs)]> gs). destruct (insert_split gs t _ (pd', chs) Hg) as (g1 & g2 & Eg & Eg').
  split; [|apply (work_insert _ _ _ _ Hg); reflexivity].
  assert (Hbl : b < length m) by (eapply lookup_lt_Some, Hm).
  assert (Hsub : forall z, z ∈ pends gs <-> z = (b, p, x) \/ z ∈ pends (g1 ++ (pd', chs) :: g2)).
  { intros z. rewrite Eg, !pends_split. cbn [fst]. set_solver. }
  assert (Hmine : exists l, G !! b = Some l /\ l !! p = Some x) by (apply (iv_pend _ _ _ _ _ H), Hsub; auto).
  destruct Hmine as (l & HG & Hx).
  destruct (iv_perm _ _ _ _ _ H _ _ HG) as (a & Ha & _). pose proof (inv_bound _ _ _ _ _ _ _ _ _ H HG Ha Hm) as Hb.
  assert (Hpl : p < length blk) by (apply lookup_lt_Some in Hx; lia).
  rewrite Eg'. constructor.
  - rewrite <- Eg'. apply Forall2_insert; [apply (iv_run _ _ _ _ _ H)|]. exact Hk.
  - apply (iv_cnt _ _ _ _ _ H).
  - apply (iv_all _ _ _ _ _ H).
  - intros b' l' Hb'. destruct (iv_perm _ _ _ _ _ H _ _ Hb') as (a' & Ha' & Hpm). exists a'. split; [exact Ha'|]. rewrite <- Hpm, Eg, !left_split. reflexivity.
  - intros g ch Hin Hch. apply elem_of_app in Hin as [Hin|Hin]; [|apply elem_of_cons in Hin as [->|Hin]].
    + apply (iv_dom _ _ _ _ _ H g ch); [rewrite Eg; apply elem_of_app; auto|exact Hch].
    + apply (iv_dom _ _ _ _ _ H ((b, p, x) :: pd', chs) ch); [rewrite Eg; apply elem_of_app; right; left|exact Hch].
    + apply (iv_dom _ _ _ _ _ H g ch); [rewrite Eg; apply elem_of_app; right; right; exact Hin|exact Hch].
  - rewrite list_fmap_insert, insert_length, <- (iv_mlen _ _ _ _ _ H). apply list_insert_id. rewrite list_lookup_fmap, Hm. reflexivity.
  - intros b' l' p' x' Hb' Hx'. destruct (decide ((b', p') = (b, p))) as [E|Hne].
    + injection E as -> ->. rewrite HG in Hb'. injection Hb' as <-. rewrite Hx in Hx'. injection Hx' as <-. left.
      eexists. split; [apply list_lookup_insert, Hbl|]. apply list_lookup_insert, Hpl.
    + destruct (iv_cell _ _ _ _ _ H _ _ _ _ Hb' Hx') as [(blk' & Hm' & Hc')|Hin].
      * left. destruct (decide (b' = b)) as [->|Hb''].
        -- rewrite Hm in Hm'. injection Hm' as <-. eexists. split; [apply list_lookup_insert, Hbl|]. rewrite list_lookup_insert_ne by congruence. exact Hc'.
        -- exists blk'. split; [rewrite list_lookup_insert_ne by congruence; exact Hm'|exact Hc'].
      * right. apply Hsub in Hin as [E|Hin]; [injection E as -> -> ->; congruence|exact Hin].
  - intros b' p' x' Hin. apply (iv_pend _ _ _ _ _ H), Hsub. auto.
  - pose proof (iv_nodup _ _ _ _ _ H) as Hnd. rewrite Eg, pends_split in Hnd. rewrite pends_split. cbn [fst] in *.
    rewrite !fmap_app in *. rewrite fmap_cons in Hnd. cbn [fst] in Hnd. apply NoDup_app in Hnd as (N1 & N2 & N3). rewrite <- app_comm_cons in N2, N3. apply NoDup_cons in N3 as [N4 N5].
    apply NoDup_app. split; [exact N1|]. split; [|exact N5]. intros z Hz Hz'. apply (N2 z Hz). right. exact Hz'.
Qed.

Lemma inv_step c m ps G gs c' m' ps' : inv c m ps G gs -> fstep ((c, m), ps) ((c', m'), ps') ->
  exists G' gs', inv c' m' ps' G' gs' /\ sum_list_with work gs = S (sum_list_with work gs').
Proof.
  intros H Hs. inversion Hs; subst.
  - eapply inv_fadd; eassumption.
  - edestruct inv_put as (gs' & Hi & Hw); [exact H|eassumption|eassumption|]. eauto.
Qed.

Lemma inv_nofault c m ps G gs t p f : inv c m ps G gs -> ps !! t = Some p -> fthread_fault c m p f -> False.
Proof.
  intros H Hp Hf. destruct (Forall2_lookup_l _ _ _ _ _ (iv_run _ _ _ _ _ H) Hp) as ([pd chs] & Hg & Hr). cbn [fst snd] in Hr.
  pose proof (inv_len _ _ _ _ _ H) as (Lc & Lm & LG).
  inversion Hr as [r|b i x k ps1 chs1 r Hk|b n k xs chs1 r Hlen Hk]; subst; cbn in Hf.
  - exact Hf.
  - assert (Hin : (b, i, x) ∈ pends gs).
    { destruct (insert_split gs t _ ([], []) Hg) as (g1 & g2 & -> & _). rewrite pends_split. cbn [fst]. set_solver. }
    destruct (iv_pend _ _ _ _ _ H _ _ _ Hin) as (l & HG & Hx). destruct (lookup_lt_is_Some_2 m b) as [blk Hm]; [apply lookup_lt_Some in HG; lia|].
    destruct (iv_perm _ _ _ _ _ H _ _ HG) as (a & Ha & _). pose proof (inv_bound _ _ _ _ _ _ _ _ _ H HG Ha Hm). destruct Hf as [Hf _]. specialize (Hf _ Hm).
    apply lookup_lt_Some in Hx. lia.
  - destruct Hf as [Hf _]. apply lookup_ge_None in Hf. assert (Hb : b < length All); [|lia].
    apply (iv_dom _ _ _ _ _ H _ (b, xs) (elem_of_list_lookup_2 _ _ _ Hg)). left.
Qed.

Lemma inv_norace c m ps G gs : inv c m ps G gs -> ~ frace ((c, m), ps).
Proof.
  intros H (t & u & b & p & x & y & k & k' & Hne & Ht & Hu). cbn [snd] in *.
  destruct (Forall2_lookup_l _ _ _ _ _ (iv_run _ _ _ _ _ H) Ht) as ([pd chs] & Hg & Hr). cbn [fst snd] in Hr.
  destruct (Forall2_lookup_l _ _ _ _ _ (iv_run _ _ _ _ _ H) Hu) as ([pd2 chs2] & Hg2 & Hr2). cbn [fst snd] in Hr2.
  inversion Hr as [|b1 i1 x1 k1 ps1 chs1 r1 Hk1|]; subst. inversion Hr2 as [|b1 i1 x1 k1 ps1' chs1' r1 Hk1'|]; subst.
  destruct (insert_split gs t _ ([], chs) Hg) as (g1 & g2 & Eg & Eg').
  pose proof (iv_nodup _ _ _ _ _ H) as Hnd. rewrite Eg, pends_split in Hnd. cbn [fst] in Hnd. rewrite !fmap_app, fmap_cons in Hnd. cbn [fst] in Hnd.
  assert (Hin : (b, p) ∈ (fst <$> pends g1) ++ (fst <$> pends g2)).
  { assert (Hu' : <[t := (([] : list put), chs)]> gs !! u = Some ((b, p, y) :: ps1', chs2)) by (rewrite list_lookup_insert_ne by congruence; exact Hg2).
    rewrite Eg' in Hu'. apply elem_of_list_lookup_2 in Hu'.
    assert (Hz : (b, p) ∈ (fst <$> pends (g1 ++ (([] : list put), chs) :: g2))).
    { apply elem_of_list_fmap. exists (b, p, y). split; [reflexivity|]. unfold pends. apply elem_of_list_join. exists ((b, p, y) :: ps1'). split; [left|].
      apply elem_of_list_fmap. exists ((b, p, y) :: ps1', chs2). split; [reflexivity|exact Hu']. }
    rewrite pends_split in Hz. cbn [fst] in Hz. rewrite app_nil_l, fmap_app in Hz. exact Hz. }
  apply NoDup_app in Hnd as (N1 & N2 & N3). apply elem_of_app in Hin as [Hin|Hin].
  - apply (N2 _ Hin). apply elem_of_app. left. left.
  - rewrite <- app_comm_cons in N3. apply NoDup_cons in N3 as [N4 _]. apply N4. apply elem_of_app. right. exact Hin.
Qed.

Lemma inv_done c m ps G gs : inv c m ps G gs -> Forall (fun p => p = FRet tt) ps ->
  c = length <$> G /\ m = (fun l : list X => Some <$> l) <$> G /\ Forall2 (≡ₚ) G All.
Proof.
  intros H Hd. assert (Hg : forall g, g ∈ gs -> g = ([], [])).
  { intros g Hin. apply elem_of_list_lookup in Hin as [t Ht]. destruct (Forall2_lookup_r _ _ _ _ _ (iv_run _ _ _ _ _ H) Ht) as (p & Hp & Hr).
    rewrite Forall_lookup in Hd. rewrite (Hd _ _ Hp) in Hr. destruct g as [pd chs]. cbn in Hr. inversion Hr. reflexivity. }
  assert (Hl : forall b, left_ b gs = []).
  { intros b. unfold left_. clear H. induction gs as [|g gs' IH]; [reflexivity|]. rewrite fmap_cons, mjoin_cons, (Hg g) by left. cbn. apply IH. intros g' Hg'. apply Hg. right. exact Hg'. }
  assert (Hpd : pends gs = []).
  { unfold pends. clear H Hl. induction gs as [|g gs' IH]; [reflexivity|]. rewrite fmap_cons, mjoin_cons, (Hg g) by left. cbn. apply IH. intros g' Hg'. apply Hg. right. exact Hg'. }
  pose proof (inv_len _ _ _ _ _ H) as (Lc & Lm & LG).
  assert (HP : Forall2 (≡ₚ) G All).
  { apply Forall2_same_length_lookup_2; [exact LG|]. intros b l a HG HA. destruct (iv_perm _ _ _ _ _ H _ _ HG) as (a' & Ha' & Hpm).
    rewrite HA in Ha'. injection Ha' as <-. rewrite Hl, app_nil_r in Hpm. exact Hpm. }
  split; [apply (iv_cnt _ _ _ _ _ H)|]. split; [|exact HP].
  apply list_eq. intros b. rewrite list_lookup_fmap. destruct (G !! b) as [l|] eqn:HG.
  2:{ apply lookup_ge_None in HG. apply lookup_ge_None. lia. }
  destruct (lookup_lt_is_Some_2 m b) as [blk Hm]; [apply lookup_lt_Some in HG; lia|]. rewrite Hm. cbn. f_equal.
  destruct (Forall2_lookup_l _ _ _ _ _ HP HG) as (a & Ha & Hpm).
  assert (E : length blk = length l).
  { pose proof (iv_mlen _ _ _ _ _ H) as E. apply (f_equal (fun z => z !! b)) in E. rewrite !list_lookup_fmap, Hm, Ha in E. simpl in E. injection E as E. rewrite E. symmetry. apply Permutation_length, Hpm. }
  apply list_eq. intros p. rewrite list_lookup_fmap. destruct (l !! p) as [x|] eqn:Hx.
  - destruct (iv_cell _ _ _ _ _ H _ _ _ _ HG Hx) as [(blk' & Hm' & Hc)|Hin].
    + rewrite Hm in Hm'. injection Hm' as <-. exact Hc.
    + rewrite Hpd in Hin. apply elem_of_nil in Hin. contradiction.
  - apply lookup_ge_None in Hx. apply lookup_ge_None. lia.
Qed.

Lemma done_dec (ps : list (fprog X unit)) : Forall (fun p => p = FRet tt) ps \/ exists t p, ps !! t = Some p /\ p <> FRet tt.
Proof.
  induction ps as [|p ps IH]; [left; constructor|]. destruct IH as [IH|(t & q & Ht & Hq)].
  - destruct p as [[]|b n k|b i x k|f]; [left; constructor; auto| | |]; right; exists 0; eexists; (split; [reflexivity|discriminate]).
  - right. exists (S t), q. auto.
Qed.

Lemma inv_progress c m ps G gs : inv c m ps G gs -> Forall (fun p => p = FRet tt) ps \/ exists c', fstep ((c, m), ps) c'.
Proof.
  intros H. destruct (done_dec ps) as [Hd|(t & p & Hp & Hne)]; [left; exact Hd|right].
  destruct p as [[]|b n k|b i x k|f]; [congruence| | |].
  - destruct (c !! b) as [v|] eqn:E; [eexists; eapply fstep_fadd; eassumption|]. exfalso. eapply (inv_nofault _ _ _ _ _ _ _ OutOfBounds H Hp). cbn. auto.
  - destruct (m !! b) as [blk|] eqn:E.
    + destruct (decide (i < length blk)) as [Hi|Hi]; [eexists; eapply fstep_put; eassumption|]. exfalso.
      eapply (inv_nofault _ _ _ _ _ _ _ OutOfBounds H Hp). cbn. split; [|reflexivity]. intros blk' E'. rewrite E in E'. injection E' as <-. lia.
    + exfalso. eapply (inv_nofault _ _ _ _ _ _ _ OutOfBounds H Hp). cbn. split; [|reflexivity]. intros blk' E'. rewrite E in E'. discriminate.
  - exfalso. eapply (inv_nofault _ _ _ _ _ _ _ f H Hp). reflexivity.
Qed.

Lemma inv_rtc c m ps G gs c' m' ps' : inv c m ps G gs -> rtc fstep ((c, m), ps) ((c', m'), ps') -> exists G' gs', inv c' m' ps' G' gs'.
Proof.
  intros H Hr. remember ((c, m), ps) as a eqn:Ea. remember ((c', m'), ps') as z eqn:Ez. revert c m ps G gs H Ea. induction Hr as [a|a b z Hs Hr IH]; intros c m ps G gs H Ea.
  - rewrite Ea in Ez. injection Ez as <- <- <-. eauto.
  - subst a. destruct b as [[c1 m1] ps1]. destruct (inv_step _ _ _ _ _ _ _ _ H Hs) as (G' & gs' & H' & _). eapply (IH Ez); [exact H'|reflexivity].
Qed.

Lemma inv_bound_steps n c m ps G gs z : inv c m ps G gs -> nsteps fstep n ((c, m), ps) z -> n <= sum_list_with work gs.
Proof.
  intros H Hr. remember ((c, m), ps) as a eqn:Ea. revert c m ps G gs H Ea. induction Hr as [a|n a b z Hs Hr IH]; intros c m ps G gs H Ea; [lia|].
  subst a. destruct b as [[c1 m1] ps1]. destruct (inv_step _ _ _ _ _ _ _ _ H Hs) as (G' & gs' & H' & E). specialize (IH _ _ _ _ _ H' eq_refl). lia.
Qed.

Lemma inv_finish n c m ps G gs : sum_list_with work gs <= n -> inv c m ps G gs ->
  exists m' ps', rtc fstep ((c, m), ps) (m', ps') /\ Forall (fun p => p = FRet tt) ps'.
Proof.
  revert c m ps G gs. induction n as [|n IH]; intros c m ps G gs Hn H; destruct (inv_progress _ _ _ _ _ H) as [Hd|[[[c1 m1] ps1] Hs]].
  1, 3: exists (c, m), ps; split; [reflexivity|exact Hd].
  all: destruct (inv_step _ _ _ _ _ _ _ _ H Hs) as (G' & gs' & H' & E).
  - lia.
  - destruct (IH c1 m1 ps1 G' gs' ltac:(lia) H') as (m' & ps' & Hr & Hd). exists m', ps'. split; [eapply rtc_l; eassumption|exact Hd].
Qed.
End Inv.

(** A phase in which thread [t] writes the chunks [chss !! t]. *)
Section Phase.
Variables (ps : list (fprog X unit)) (chss : list (list chunk)) (nb : nat).
Hypothesis Hruns : Forall2 (fun p chs => runs p [] chs tt) ps chss.
Hypothesis Hdom : forall chs ch, chs ∈ chss -> ch ∈ chs -> ch.1 < nb.
Definition allOf (b : nat) : list X := mjoin (ofBlock b <$> chss).
Definition fstart (fl : list nat) : fcfg X := ((replicate nb 0, (fun f => replicate f None) <$> fl), ps).
Let fl := (fun b => length (allOf b)) <$> seq 0 nb.

Lemma start_inv : inv (allOf <$> seq 0 nb) (replicate nb 0) ((fun f => replicate f None) <$> fl) ps (replicate nb []) ((fun c => ([], c)) <$> chss).
Proof.
  assert (Hpd : pends ((fun c => ([], c)) <$> chss) = []).
  { unfold pends. clear. induction chss as [|c l IH]; [reflexivity|]. rewrite !fmap_cons, mjoin_cons. exact IH. }
  constructor.
  - apply Forall2_fmap_r. eapply Forall2_impl; [exact Hruns|]. intros p c Hr. exact Hr.
  - rewrite fmap_replicate. reflexivity.
  - apply Forall2_same_length_lookup_2; [rewrite replicate_length, fmap_length, seq_length; reflexivity|auto].
  - intros b l Hl. apply lookup_replicate in Hl as [-> Hb]. exists (allOf b). split; [rewrite list_lookup_fmap, lookup_seq_lt by exact Hb; reflexivity|].
    unfold left_, allOf. rewrite <- list_fmap_compose. reflexivity.
  - intros g ch Hg Hch. rewrite fmap_length, seq_length. apply elem_of_list_fmap in Hg as (c & -> & Hc). eapply Hdom; eassumption.
  - unfold fl. rewrite <- !list_fmap_compose. apply list_fmap_ext. intros i b _. cbn. apply replicate_length.
  - intros b l p x Hl Hx. apply lookup_replicate in Hl as [-> _]. rewrite lookup_nil in Hx. discriminate.
  - rewrite Hpd. intros b p x Hin. apply elem_of_nil in Hin. contradiction.
  - rewrite Hpd. constructor.
Qed.

Lemma phase_out o : foutcome (fstart fl) o -> exists G : list (list X), o = Ok (length <$> G, (fun l : list X => Some <$> l) <$> G) /\ Forall2 (≡ₚ) G (allOf <$> seq 0 nb).
Proof.
  pose proof start_inv as H. intros Ho. inversion Ho as [cn m ps' t p f Hr Hp Hf|[[cn m] ps'] Hr Hrace|Hlong|[cn m] ps' Hr Hd]; subst.
  - destruct (inv_rtc _ _ _ _ _ _ _ _ _ H Hr) as (G & gs & H'). exfalso. eapply inv_nofault; eassumption.
  - destruct (inv_rtc _ _ _ _ _ _ _ _ _ H Hr) as (G & gs & H'). exfalso. eapply inv_norace; eassumption.
  - exfalso. apply Hlong. eexists. intros k c' Hk. eapply inv_bound_steps; [exact H|exact Hk].
  - destruct (inv_rtc _ _ _ _ _ _ _ _ _ H Hr) as (G & gs & H'). destruct (inv_done _ _ _ _ _ _ H' Hd) as (-> & -> & HG). eauto.
Qed.

Lemma phase_exists : exists o, foutcome (fstart fl) o.
Proof. destruct (inv_finish _ _ _ _ _ _ _ (le_n _) start_inv) as (m & ps' & Hr & Hd). eexists. eapply fout_done; eassumption. Qed.

Lemma phase_norace c : rtc fstep (fstart fl) c -> ~ frace c.
Proof. destruct c as [[cn m] ps']. intros Hr. destruct (inv_rtc _ _ _ _ _ _ _ _ _ start_inv Hr) as (G & gs & H'). eapply inv_norace, H'. Qed.
End Phase.
End M.
