(** sortIds and the constructors that sort every column in parallel. *)
From stdpp Require Import numbers.
From Verif Require Import MatModel BaseProofs ConcProofs ParProofs ScanProofs WorkProofs Assemble MatProofs MatSpec ConvProofs.
From Verif Require DriverBase.
From Verif Require Import Base Spec.

Section Slices.
Context {V : Type}.
Notation mem := (gmap loc (cellv V)).
Notation ev := (@event loc (cellv V)).

(** ** The loops inside one iteration *)
Definition evR2 (b n : nat) : list ev := mjoin ((fun j => [ERd (aIds, j); ERd (aVals, j)]) <$> seq b n).
Definition evRP (b n : nat) : list ev := mjoin ((fun j => [ERd (aSort, j)]) <$> seq b n).
Fixpoint evW2 (b : nat) (l : list (nat * V)) : list ev :=
  match l with [] => [] | (c, v) :: l' => EWr (aIds, b) (CN c) :: EWr (aVals, b) (CV v) :: evW2 (S b) l' end.
Fixpoint evWP (b : nat) (l : list (nat * V)) : list ev :=
  match l with [] => [] | (c, v) :: l' => EWr (aSort, b) (CP c v) :: evWP (S b) l' end.
(** Read a pair of tosort, write both arrays. *)
Fixpoint evRW (b : nat) (l : list (nat * V)) : list ev :=
  match l with [] => [] | (c, v) :: l' => ERd (aSort, b) :: EWr (aIds, b) (CN c) :: EWr (aVals, b) (CV v) :: evRW (S b) l' end.

Lemma solo_read2 (m : mem) b l acc :
  (forall k c v, l !! k = Some (c, v) -> m !! (aIds, b + k) = Some (CN c) /\ m !! (aVals, b + k) = Some (CV v)) ->
  solo m (pfor_n (length l) b (fun j tosort => pbind (rdCN (aIds, j)) (fun c => pbind (rdCV (aVals, j)) (fun v => Ret (tosort ++ [(c, v)])))) acc)
    (evR2 b (length l)) (acc ++ l) m.
Proof.
  revert b acc. induction l as [|[c v] l IH]; intros b acc Hm; simpl.
  - rewrite app_nil_r. constructor.
  - destruct (Hm 0 c v eq_refl) as [H1 H2]. rewrite Nat.add_0_r in H1, H2.
    unfold evR2. cbn [seq]. rewrite fmap_cons, mjoin_cons. simpl.
    eapply solo_rd; [exact H1|]. simpl. eapply solo_rd; [exact H2|]. simpl.
    replace (acc ++ (c, v) :: l) with ((acc ++ [(c, v)]) ++ l) by (rewrite <- app_assoc; reflexivity).
    apply IH. intros k c' v' Hk. specialize (Hm (S k) c' v' Hk). replace (S b + k) with (b + S k) by lia. exact Hm.
Qed.

Lemma solo_readP (m : mem) b l acc :
  (forall k c v, l !! k = Some (c, v) -> m !! (aSort, b + k) = Some (CP c v)) ->
  solo m (pfor_n (length l) b (fun j l => pbind (rdCP (aSort, j)) (fun x => Ret (l ++ [x]))) acc)
    (evRP b (length l)) (acc ++ l) m.
Proof.
  revert b acc. induction l as [|[c v] l IH]; intros b acc Hm; simpl.
  - rewrite app_nil_r. constructor.
  - pose proof (Hm 0 c v eq_refl) as H1. rewrite Nat.add_0_r in H1.
    unfold evRP. cbn [seq]. rewrite fmap_cons, mjoin_cons. simpl.
    eapply solo_rd; [exact H1|]. simpl.
    replace (acc ++ (c, v) :: l) with ((acc ++ [(c, v)]) ++ l) by (rewrite <- app_assoc; reflexivity).
    apply IH. intros k c' v' Hk. specialize (Hm (S k) c' v' Hk). replace (S b + k) with (b + S k) by lia. exact Hm.
Qed.

Lemma solo_write2 (m : mem) b l :
  (forall k, k < length l -> is_Some (m !! (aIds, b + k)) /\ is_Some (m !! (aVals, b + k))) ->
  exists m', solo m (pfor_n (length l) b (fun j it =>
           match it with
           | [] => Fail OutOfBounds
           | (c, v) :: it' => Wr (aIds, j) (CN c) (Wr (aVals, j) (CV v) (Ret it'))
           end) l) (evW2 b l) [] m'.
Proof.
  revert b m. induction l as [|[c v] l IH]; intros b m Hm; simpl.
  - exists m. constructor.
  - destruct (Hm 0 ltac:(simpl; lia)) as [H1 H2]. rewrite Nat.add_0_r in H1, H2.
    destruct (IH (S b) (<[(aVals, b) := CV v]> (<[(aIds, b) := CN c]> m))) as [m' Hm'].
    { intros k Hk. destruct (Hm (S k) ltac:(simpl; lia)) as [H3 H4]. replace (S b + k) with (b + S k) by lia.
      split; rewrite !lookup_insert_is_Some; right; (split; [intros [=]; lia|]); right; (split; [intros [=]; lia|]); assumption. }
    exists m'. apply solo_wr; [exact H1|]. apply solo_wr; [|exact Hm'].
    rewrite lookup_insert_is_Some. right. split; [intros [=]|exact H2].
Qed.

Lemma solo_writeP (m : mem) b l :
  (forall k, k < length l -> is_Some (m !! (aSort, b + k))) ->
  exists m', solo m (pfor_n (length l) b (fun j it =>
           match it with
           | [] => Fail OutOfBounds
           | (c, v) :: it' => Wr (aSort, j) (CP c v) (Ret it')
           end) l) (evWP b l) [] m' /\
    (forall k c v, l !! k = Some (c, v) -> m' !! (aSort, b + k) = Some (CP c v)) /\
    (forall k, k < b -> m' !! (aSort, k) = m !! (aSort, k)).
Proof.
  revert b m. induction l as [|[c v] l IH]; intros b m Hm; simpl.
  - exists m. split; [constructor|]. split; [intros; discriminate|auto].
  - pose proof (Hm 0 ltac:(simpl; lia)) as H1. rewrite Nat.add_0_r in H1.
    destruct (IH (S b) (<[(aSort, b) := CP c v]> m)) as (m' & Hm' & Hv & Hk').
    { intros k Hk. pose proof (Hm (S k) ltac:(simpl; lia)) as H3. replace (S b + k) with (b + S k) by lia.
      rewrite !lookup_insert_is_Some; right; (split; [intros [=]; lia|]); assumption. }
    exists m'. split; [apply solo_wr; [exact H1|exact Hm']|]. split.
    + intros [|k] c' v' Hk.
      * injection Hk as <- <-. rewrite Nat.add_0_r, Hk' by lia. apply lookup_insert.
      * replace (b + S k) with (S b + k) by lia. apply Hv, Hk.
    + intros k Hk. rewrite Hk' by lia. apply lookup_insert_ne. intros [=]. lia.
Qed.

Lemma solo_rw (m : mem) b l :
  (forall k c v, l !! k = Some (c, v) -> m !! (aSort, b + k) = Some (CP c v)) ->
  (forall k, k < length l -> is_Some (m !! (aIds, b + k)) /\ is_Some (m !! (aVals, b + k))) ->
  exists m', solo m (pfor_n (length l) b (fun j _ => pbind (rdCP (aSort, j)) (fun x =>
    Wr (aIds, j) (CN (fst x)) (Wr (aVals, j) (CV (snd x)) (Ret tt)))) tt) (evRW b l) tt m'.
Proof.
  revert b m. induction l as [|[c v] l IH]; intros b m Hs Hm; simpl.
  - exists m. constructor.
  - destruct (Hm 0 ltac:(simpl; lia)) as [H1 H2]. pose proof (Hs 0 c v eq_refl) as H0. rewrite Nat.add_0_r in H0, H1, H2.
    destruct (IH (S b) (<[(aVals, b) := CV v]> (<[(aIds, b) := CN c]> m))) as [m' Hm'].
    { intros k c' v' Hk. rewrite !lookup_insert_ne by (intros [=]). replace (S b + k) with (b + S k) by lia. apply Hs, Hk. }
    { intros k Hk. destruct (Hm (S k) ltac:(simpl; lia)) as [H3 H4]. replace (S b + k) with (b + S k) by lia.
      split; rewrite !lookup_insert_is_Some; right; (split; [intros [=]; lia|]); right; (split; [intros [=]; lia|]); assumption. }
    exists m'. eapply solo_rd; [exact H0|]. simpl. apply solo_wr; [exact H1|]. apply solo_wr; [|exact Hm'].
    rewrite lookup_insert_is_Some. right. split; [intros [=]|exact H2].
Qed.

(** Membership in the event lists. *)
Lemma evR2_rd b n l : ERd l ∈ evR2 b n <-> (fst l = aIds \/ fst l = aVals) /\ b <= snd l < b + n.
Proof.
  unfold evR2. rewrite elem_of_events. split.
  - intros (i & Hi & He). rewrite !elem_of_cons in He. destruct He as [[= ->]|[[= ->]|He]]; simpl; [auto|auto|inversion He].
  - intros [Ha Hl]. exists (snd l). split; [exact Hl|]. destruct l as [a p]; simpl in *. destruct Ha as [->| ->]; [left|right; left].
Qed.
Lemma evR2_only b n e : e ∈ evR2 b n -> exists l, e = ERd l.
Proof. unfold evR2. rewrite elem_of_events. intros (i & _ & He). rewrite !elem_of_cons in He. destruct He as [->|[->|He]]; [eauto..|inversion He]. Qed.
Lemma evRP_rd b n l : ERd l ∈ evRP b n <-> fst l = aSort /\ b <= snd l < b + n.
Proof.
  unfold evRP. rewrite elem_of_events. split.
  - intros (i & Hi & He). rewrite elem_of_list_singleton in He. injection He as ->. auto.
  - intros [Ha Hl]. exists (snd l). split; [exact Hl|]. destruct l as [a p]; simpl in *. subst a. left.
Qed.
Lemma evRP_only b n e : e ∈ evRP b n -> exists l, e = ERd l.
Proof. unfold evRP. rewrite elem_of_events. intros (i & _ & He). rewrite elem_of_list_singleton in He. eauto. Qed.

Lemma evW2_elem b l e : e ∈ evW2 b l <-> exists k c v, l !! k = Some (c, v) /\ (e = EWr (aIds, b + k) (CN c) \/ e = EWr (aVals, b + k) (CV v)).
Proof.
  revert b. induction l as [|[c v] l IH]; intros b; simpl.
  - split; [intros He; inversion He|intros (k & c & v & Hk & _); discriminate].
  - rewrite !elem_of_cons, IH. split.
    + intros [->|[->|(k & c' & v' & Hk & He)]].
      * exists 0, c, v. rewrite Nat.add_0_r. auto.
      * exists 0, c, v. rewrite Nat.add_0_r. auto.
      * exists (S k), c', v'. replace (b + S k) with (S b + k) by lia. auto.
    + intros ([|k] & c' & v' & Hk & He).
      * injection Hk as <- <-. rewrite Nat.add_0_r in He. tauto.
      * right. right. exists k, c', v'. replace (S b + k) with (b + S k) by lia. auto.
Qed.
Lemma evWP_elem b l e : e ∈ evWP b l <-> exists k c v, l !! k = Some (c, v) /\ e = EWr (aSort, b + k) (CP c v).
Proof.
  revert b. induction l as [|[c v] l IH]; intros b; simpl.
  - split; [intros He; inversion He|intros (k & c & v & Hk & _); discriminate].
  - rewrite !elem_of_cons, IH. split.
    + intros [->|(k & c' & v' & Hk & He)].
      * exists 0, c, v. rewrite Nat.add_0_r. auto.
      * exists (S k), c', v'. replace (b + S k) with (S b + k) by lia. auto.
    + intros ([|k] & c' & v' & Hk & He).
      * injection Hk as <- <-. rewrite Nat.add_0_r in He. tauto.
      * right. exists k, c', v'. replace (S b + k) with (b + S k) by lia. auto.
Qed.
Lemma evRW_elem b l e : e ∈ evRW b l <-> exists k c v, l !! k = Some (c, v) /\
  (e = ERd (aSort, b + k) \/ e = EWr (aIds, b + k) (CN c) \/ e = EWr (aVals, b + k) (CV v)).
Proof.
  revert b. induction l as [|[c v] l IH]; intros b; simpl.
  - split; [intros He; inversion He|intros (k & c & v & Hk & _); discriminate].
  - rewrite !elem_of_cons, IH. split.
    + intros [->|[->|[->|(k & c' & v' & Hk & He)]]].
      1-3: exists 0, c, v; rewrite Nat.add_0_r; auto.
      exists (S k), c', v'. replace (b + S k) with (S b + k) by lia. auto.
    + intros ([|k] & c' & v' & Hk & He).
      * injection Hk as <- <-. rewrite Nat.add_0_r in He. tauto.
      * right. right. right. exists k, c', v'. replace (S b + k) with (b + S k) by lia. auto.
Qed.
End Slices.

(** ** Sorting all rows *)
Section SortRows.
Context {V : Type} (stdsort : list (nat * V) -> list (nat * V)).
Notation mem := (gmap loc (cellv V)).
Hypothesis Hlen : forall l, length (stdsort l) = length l.

Context (f : nat -> list (nat * V)) (n : nat).
Let g i := stdsort (f i).
Let ptr := pre f <$> seq 0 (n + 1).

Lemma pre_g i : pre g i = pre f i.
Proof. induction i as [|i IH]; [reflexivity|]. rewrite !pre_S, IH. unfold g. rewrite Hlen. reflexivity. Qed.

Lemma ptr_get i : i <= n -> get ptr i = Ok (pre f i).
Proof. intros Hi. apply get_Some. unfold ptr. apply seq_fmap_lookup. lia. Qed.

Definition inSlice (i p : nat) : Prop := pre f i <= p < pre f (S i).
Lemma slice_uniq i j p : inSlice i p -> inSlice j p -> i = j.
Proof.
  unfold inSlice. intros Hi Hj. destruct (Nat.lt_trichotomy i j) as [Hlt|[->|Hlt]]; [|reflexivity|].
  - pose proof (pre_le f (S i) j ltac:(lia)). lia.
  - pose proof (pre_le f (S j) i ltac:(lia)). lia.
Qed.
Lemma slice_of p : p < pre f n -> exists i, i < n /\ inSlice i p.
Proof.
  unfold inSlice. induction n as [|k IH]; [rewrite pre_0; lia|]. intros Hp.
  destruct (Nat.lt_ge_cases p (pre f k)) as [H|H]; [destruct (IH H) as (i & Hi & ?); exists i; split; [lia|assumption]|exists k; lia].
Qed.
Lemma rows_at (h : nat -> list (nat * V)) i k : (forall j, length (h j) = length (f j)) -> i < n -> k < length (f i) -> rowsOf h 0 n !! (pre f i + k) = h i !! k.
Proof.
  intros Hh Hi Hk. assert (Hp : forall j, pre h j = pre f j).
  { induction j as [|j IH]; [reflexivity|]. rewrite !pre_S, IH, Hh. reflexivity. }
  rewrite (rowsOf_lookup h i (S i) n) by (rewrite ?Hp, ?pre_S; lia). rewrite rowsOf_S, rowsOf_nil by lia. simpl. rewrite Hp. f_equal. lia.
Qed.
Lemma rows_len (h : nat -> list (nat * V)) : (forall j, length (h j) = length (f j)) -> length (rowsOf h 0 n) = pre f n.
Proof.
  intros Hh. assert (Hp : forall j, pre h j = pre f j).
  { induction j as [|j IH]; [reflexivity|]. rewrite !pre_S, IH, Hh. reflexivity. }
  rewrite rowsOf_length, !Hp, pre_0 by lia. lia.
Qed.

Lemma arrays_lookup ids (vals : list V) a p : arrays ids vals !! (a, p) =
  if decide (a = aIds) then CN <$> ids !! p else if decide (a = aVals) then CV <$> vals !! p else None.
Proof.
  unfold arrays. rewrite lookup_union, !cells_lookup, !list_lookup_fmap.
  destruct (decide (a = aIds)) as [->|]; [simpl; destruct (ids !! p); reflexivity|].
  destruct (decide (a = aVals)) as [->|]; [simpl; destruct (vals !! p); reflexivity|reflexivity].
Qed.

Lemma parfor_sort :
  parfor_ends (sortRow stdsort ptr) n (arrays (fst <$> rowsOf f 0 n) (snd <$> rowsOf f 0 n))
    (arrays (fst <$> rowsOf g 0 n) (snd <$> rowsOf g 0 n)) /\
  parfor_race_free (sortRow stdsort ptr) n (arrays (fst <$> rowsOf f 0 n) (snd <$> rowsOf f 0 n)).
Proof.
  set (m0 := arrays (fst <$> rowsOf f 0 n) (snd <$> rowsOf f 0 n)).
  set (evs := fun i => evR2 (V := V) (pre f i) (length (f i)) ++ evW2 (pre f i) (g i)).
  set (own := fun i (l : loc) => (fst l = aIds \/ fst l = aVals) /\ inSlice i (snd l)).
  set (wv := fun l : loc => if decide (fst l = aIds) then CN <$> (rowsOf g 0 n !! snd l) ≫= (fun x => Some (fst x))
     else CV <$> (rowsOf g 0 n !! snd l) ≫= (fun x => Some (snd x))).
  assert (Hgl : forall j, length (g j) = length (f j)) by (intros; apply Hlen).
  assert (Hm0 : forall i k c v, i < n -> f i !! k = Some (c, v) -> m0 !! (aIds, pre f i + k) = Some (CN c) /\ m0 !! (aVals, pre f i + k) = Some (CV v)).
  { intros i k c v Hi Hk. pose proof (lookup_lt_Some _ _ _ Hk). unfold m0. rewrite !arrays_lookup. simpl.
    rewrite !list_lookup_fmap, rows_at by (auto; lia). rewrite Hk. auto. }
  assert (Hsolo : forall i m, i < n -> (forall l, is_Some (m !! l) <-> is_Some (m0 !! l)) ->
    (forall l, own i l \/ (forall j, j < n -> ~ own j l) -> m !! l = m0 !! l) -> exists mf, solo m (sortRow stdsort ptr i) (evs i) tt mf).
  { intros i m Hi Hd Ho.
    assert (Hrow : forall k c v, f i !! k = Some (c, v) -> m !! (aIds, pre f i + k) = Some (CN c) /\ m !! (aVals, pre f i + k) = Some (CV v)).
    { intros k c v Hk. pose proof (lookup_lt_Some _ _ _ Hk). destruct (Hm0 i k c v Hi Hk) as [H1 H2].
      rewrite !Ho; [auto|left..]; unfold own, inSlice; rewrite pre_S; simpl; (split; [auto|lia]). }
    destruct (solo_write2 m (pre f i) (g i)) as [mf Hmf].
    { intros k Hk. rewrite Hgl in Hk. destruct (lookup_lt_is_Some_2 (f i) k Hk) as [[c v] Hcv]. destruct (Hrow k c v Hcv) as [-> ->]. eauto. }
    exists mf. unfold sortRow. eapply solo_lift; [apply ptr_get; lia|]. eapply solo_lift; [apply ptr_get; lia|].
    unfold pfor. rewrite Nat.add_1_r, pre_S. replace (pre f i + length (f i) - pre f i) with (length (f i)) by lia.
    unfold evs. eapply solo_bind; [apply (solo_read2 m (pre f i) (f i) []), Hrow|]. simpl app.
    rewrite <- (app_nil_r (evW2 _ _)). eapply solo_bind; [|constructor]. rewrite <- Hgl. unfold g in Hmf |- *. exact Hmf. }
  assert (Hw : forall i l v, i < n -> EWr l v ∈ evs i -> own i l /\ wv l = Some v).
  { intros i l v Hi Hin. unfold evs in Hin. apply elem_of_app in Hin as [Hin|Hin]; [apply evR2_only in Hin as [? Hin]; discriminate|].
    apply evW2_elem in Hin as (k & c & w & Hk & He). pose proof (lookup_lt_Some _ _ _ Hk) as Hkl. rewrite Hgl in Hkl.
    assert (Hat : rowsOf g 0 n !! (pre f i + k) = Some (c, w)) by (rewrite rows_at by auto; exact Hk).
    destruct He as [[= -> ->]|[= -> ->]]; unfold own, inSlice, wv; rewrite pre_S; simpl; rewrite Hat; simpl; (split; [split; [auto|lia]|reflexivity]). }
  assert (Hrr : forall i l, ERd l ∈ evs i -> own i l).
  { intros i l Hin. unfold evs in Hin. apply elem_of_app in Hin as [Hin|Hin].
    - apply evR2_rd in Hin as [Ha Hl]. unfold own, inSlice. rewrite pre_S. auto.
    - apply evW2_elem in Hin as (k & c & w & _ & [H|H]); discriminate. }
  assert (Hx : forall i j l, i < n -> j < n -> own i l -> own j l -> i = j) by (intros i j l _ _ [_ H1] [_ H2]; eapply slice_uniq; eauto).
  assert (Hr : forall i j l, i < n -> j < n -> ERd l ∈ evs i -> own j l -> j = i) by (intros i j l Hi Hj Hin Ho; eapply Hx; eauto).
  assert (Ha : forall i j l, i < n -> j < n -> EAny l ∈ evs i -> own j l -> j = i).
  { intros i j l Hi Hj Hin. unfold evs in Hin. apply elem_of_app in Hin as [Hin|Hin]; [apply evR2_only in Hin as [? Hin]; discriminate|].
    apply evW2_elem in Hin as (k & c & w & _ & [H|H]); discriminate. }
  split; [|exact (parfor_owned_race _ n m0 evs own wv Hsolo Hw Hr Ha Hx)].
  destruct (parfor_owned _ n m0 evs own wv Hsolo Hw Hr Ha Hx) as (m' & Hend & Hwr & Hkp).
  replace (arrays (fst <$> rowsOf g 0 n) (snd <$> rowsOf g 0 n)) with m'; [exact Hend|].
  apply map_eq. intros [a p]. rewrite arrays_lookup, !list_lookup_fmap.
  assert (Hgp : length (rowsOf g 0 n) = pre f n) by (apply rows_len, Hgl).
  destruct (decide (a = aIds \/ a = aVals)) as [Hav|Hna].
  - destruct (Nat.lt_ge_cases p (pre f n)) as [Hp|Hp].
    + destruct (slice_of p Hp) as (i & Hi & Hs). unfold inSlice in Hs. rewrite pre_S in Hs.
      set (k := p - pre f i). assert (Hk : k < length (f i)) by lia. replace p with (pre f i + k) by lia.
      rewrite rows_at by auto. destruct (lookup_lt_is_Some_2 (g i) k) as [[c v] Hcv]; [rewrite Hgl; exact Hk|]. rewrite Hcv. simpl.
      destruct Hav as [->| ->]; simpl; apply (Hwr i); auto; unfold evs; apply elem_of_app; right; apply evW2_elem; exists k, c, v; auto.
    + rewrite (lookup_ge_None_2 (rowsOf g 0 n)) by lia. rewrite Hkp.
      * unfold m0. rewrite arrays_lookup, !list_lookup_fmap. rewrite (lookup_ge_None_2 (rowsOf f 0 n)); [reflexivity|]. rewrite rows_len by auto. exact Hp.
      * intros i v Hi Hin. destruct (Hw i _ _ Hi Hin) as [[_ Ho] _]. unfold inSlice in Ho. simpl in Ho.
        pose proof (pre_le f (S i) n ltac:(lia)). lia.
  - rewrite Hkp.
    + unfold m0. rewrite arrays_lookup. rewrite decide_False by tauto. rewrite decide_False by tauto. rewrite decide_False by tauto. rewrite decide_False by tauto. reflexivity.
    + intros i v Hi Hin. destruct (Hw i _ _ Hi Hin) as [[Ho _] _]. simpl in Ho. tauto.
Qed.

(** The same with the entries in the vector of pairs tosort. *)
Lemma parfor_sortCol (ids0 : list nat) (vals0 : list V) : length ids0 = pre f n -> length vals0 = pre f n ->
  let m0 := arrays ids0 vals0 ∪ cells aSort ((fun x => CP (fst x) (snd x)) <$> rowsOf f 0 n) in
  exists m', parfor_ends (sortCol stdsort ptr) n m0 m' /\ parfor_race_free (sortCol stdsort ptr) n m0 /\
    arrays (fst <$> rowsOf g 0 n) (snd <$> rowsOf g 0 n) ⊆ m'.
Proof.
  intros Hl0 Hl1 m0.
  set (evs := fun i => evRP (V := V) (pre f i) (length (f i)) ++ evWP (pre f i) (g i) ++ evRW (pre f i) (g i)).
  set (own := fun i (l : loc) => inSlice i (snd l)).
  set (wv := fun l : loc => (rowsOf g 0 n !! snd l) ≫= (fun x => Some (if decide (fst l = aIds) then CN (fst x)
     else if decide (fst l = aVals) then CV (snd x) else CP (fst x) (snd x)))).
  assert (Hgl : forall j, length (g j) = length (f j)) by (intros; apply Hlen).
  assert (Hm0 : forall i k c v, i < n -> f i !! k = Some (c, v) -> m0 !! (aSort, pre f i + k) = Some (CP c v)).
  { intros i k c v Hi Hk. pose proof (lookup_lt_Some _ _ _ Hk). unfold m0. rewrite lookup_union, arrays_lookup, cells_lookup. simpl.
    rewrite !list_lookup_fmap, rows_at by (auto; lia). rewrite Hk. reflexivity. }
  assert (Hm1 : forall i k, i < n -> k < length (f i) -> is_Some (m0 !! (aIds, pre f i + k)) /\ is_Some (m0 !! (aVals, pre f i + k))).
  { intros i k Hi Hk. pose proof (pre_le f (S i) n ltac:(lia)) as Hp. rewrite pre_S in Hp.
    unfold m0. rewrite !lookup_union, !arrays_lookup, !cells_lookup. simpl.
    destruct (lookup_lt_is_Some_2 ids0 (pre f i + k)) as [x ->]; [lia|]. destruct (lookup_lt_is_Some_2 vals0 (pre f i + k)) as [y ->]; [lia|].
    simpl. eauto. }
  assert (Hsolo : forall i m, i < n -> (forall l, is_Some (m !! l) <-> is_Some (m0 !! l)) ->
    (forall l, own i l \/ (forall j, j < n -> ~ own j l) -> m !! l = m0 !! l) -> exists mf, solo m (sortCol stdsort ptr i) (evs i) tt mf).
  { intros i m Hi Hd Ho.
    assert (Hin : forall a k, k < length (f i) -> own i (a, pre f i + k)).
    { intros a k Hk. unfold own, inSlice. rewrite pre_S. simpl. lia. }
    assert (Hrow : forall k c v, f i !! k = Some (c, v) -> m !! (aSort, pre f i + k) = Some (CP c v)).
    { intros k c v Hk. pose proof (lookup_lt_Some _ _ _ Hk). rewrite Ho by (left; apply Hin; assumption). apply Hm0; auto. }
    destruct (solo_writeP m (pre f i) (g i)) as (m1 & H1 & Hv1 & _).
    { intros k Hk. rewrite Hgl in Hk. destruct (lookup_lt_is_Some_2 (f i) k Hk) as [[c v] Hcv]. rewrite (Hrow k c v Hcv). eauto. }
    destruct (solo_rw m1 (pre f i) (g i) Hv1) as (m2 & H2).
    { intros k Hk. rewrite Hgl in Hk. destruct (Hm1 i k Hi Hk) as [Ha Hb]. split; apply (DriverBase.solo_dom _ _ _ _ _ _ H1), Hd; assumption. }
    exists m2. unfold sortCol. eapply solo_lift; [apply ptr_get; lia|]. eapply solo_lift; [apply ptr_get; lia|].
    unfold pfor. rewrite Nat.add_1_r, pre_S. replace (pre f i + length (f i) - pre f i) with (length (f i)) by lia.
    unfold evs. eapply solo_bind; [apply (solo_readP m (pre f i) (f i) []), Hrow|]. simpl app.
    eapply solo_bind; [rewrite <- Hgl; unfold g in H1 |- *; exact H1|]. rewrite <- Hgl. exact H2. }
  assert (Hw : forall i l v, i < n -> EWr l v ∈ evs i -> own i l /\ wv l = Some v).
  { intros i l v Hi Hin. unfold evs in Hin. apply elem_of_app in Hin as [Hin|Hin]; [apply evRP_only in Hin as [? Hin]; discriminate|].
    assert (Hc : exists k c w, g i !! k = Some (c, w) /\ snd l = pre f i + k /\
      v = (if decide (fst l = aIds) then CN c else if decide (fst l = aVals) then CV w else CP c w)).
    { apply elem_of_app in Hin as [Hin|Hin].
      - apply evWP_elem in Hin as (k & c & w & Hk & [= -> ->]). exists k, c, w. auto.
      - apply evRW_elem in Hin as (k & c & w & Hk & [He|[He|He]]); [discriminate|injection He as -> ->..]; exists k, c, w; auto. }
    destruct Hc as (k & c & w & Hk & Hl & ->). pose proof (lookup_lt_Some _ _ _ Hk) as Hkl. rewrite Hgl in Hkl.
    assert (Hat : rowsOf g 0 n !! (pre f i + k) = Some (c, w)) by (rewrite rows_at by auto; exact Hk).
    unfold own, inSlice, wv. rewrite pre_S, Hl, Hat. split; [lia|reflexivity]. }
  assert (Hrr : forall i l, ERd l ∈ evs i -> own i l).
  { intros i l Hin. unfold evs in Hin. apply elem_of_app in Hin as [Hin|Hin].
    - apply evRP_rd in Hin as [Ha Hl]. unfold own, inSlice. rewrite pre_S. lia.
    - apply elem_of_app in Hin as [Hin|Hin].
      + apply evWP_elem in Hin as (k & c & w & _ & H); discriminate.
      + apply evRW_elem in Hin as (k & c & w & Hk & [He|[He|He]]); [|discriminate..]. injection He as ->.
        pose proof (lookup_lt_Some _ _ _ Hk) as Hkl. rewrite Hgl in Hkl. unfold own, inSlice. rewrite pre_S. simpl. lia. }
  assert (Hx : forall i j l, i < n -> j < n -> own i l -> own j l -> i = j) by (intros i j l _ _ H1 H2; eapply slice_uniq; eauto).
  assert (Hr : forall i j l, i < n -> j < n -> ERd l ∈ evs i -> own j l -> j = i) by (intros i j l Hi Hj Hin Ho; eapply Hx; eauto).
  assert (Ha : forall i j l, i < n -> j < n -> EAny l ∈ evs i -> own j l -> j = i).
  { intros i j l Hi Hj Hin. unfold evs in Hin. apply elem_of_app in Hin as [Hin|Hin]; [apply evRP_only in Hin as [? Hin]; discriminate|].
    apply elem_of_app in Hin as [Hin|Hin].
    - apply evWP_elem in Hin as (k & c & w & _ & H); discriminate.
    - apply evRW_elem in Hin as (k & c & w & Hk & [He|[He|He]]); discriminate. }
  destruct (parfor_owned _ n m0 evs own wv Hsolo Hw Hr Ha Hx) as (m' & Hend & Hwr & Hkp).
  exists m'. split; [exact Hend|]. split; [exact (parfor_owned_race _ n m0 evs own wv Hsolo Hw Hr Ha Hx)|].
  assert (Hgp : length (rowsOf g 0 n) = pre f n) by (apply rows_len, Hgl).
  apply map_subseteq_spec. intros [a p] x. rewrite arrays_lookup, !list_lookup_fmap. intros Hx'.
  assert (Hp : p < pre f n).
  { destruct (Nat.lt_ge_cases p (pre f n)) as [|Hp]; [assumption|]. rewrite (lookup_ge_None_2 (rowsOf g 0 n)) in Hx' by lia.
    destruct (decide (a = aIds)), (decide (a = aVals)); discriminate. }
  destruct (slice_of p Hp) as (i & Hi & Hs). unfold inSlice in Hs. rewrite pre_S in Hs.
  set (k := p - pre f i) in *. assert (Hk : k < length (f i)) by lia. replace p with (pre f i + k) in * by lia.
  rewrite rows_at in Hx' by auto. destruct (lookup_lt_is_Some_2 (g i) k) as [[c v] Hcv]; [rewrite Hgl; exact Hk|]. rewrite Hcv in Hx'. simpl in Hx'.
  apply (Hwr i); [exact Hi|]. unfold evs. apply elem_of_app. right. apply elem_of_app. right. apply evRW_elem. exists k, c, v. split; [exact Hcv|].
  destruct (decide (a = aIds)) as [->|]; [injection Hx' as <-; auto|]. destruct (decide (a = aVals)) as [->|]; [injection Hx' as <-; auto|discriminate].
Qed.
End SortRows.
