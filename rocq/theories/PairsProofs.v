(** The constructor from pairs. *)
From stdpp Require Import numbers.
From Verif Require Import MatModel PairsModel BaseProofs ConcProofs ParProofs ScanProofs WorkProofs Assemble MatProofs MatSpec ConvProofs SortProofs MatStatements.
From Verif Require DriverBase.
From Verif Require Import Base Spec.

(** ** Slices, without the sorting function of SortProofs *)
Section SlicesId.
Context {A : Type} (f : nat -> list (nat * A)).
Definition rows_at' := rows_at (fun l : list (nat * A) => l) (fun _ => eq_refl) f.
Definition slice_of' := slice_of (fun l : list (nat * A) => l) (fun _ => eq_refl) f.
Definition slice_uniq' := slice_uniq (fun l : list (nat * A) => l) (fun _ => eq_refl) f.
Definition ptr_get' := ptr_get (fun l : list (nat * A) => l) (fun _ => eq_refl) f.
Definition rows_len' := rows_len (fun l : list (nat * A) => l) (fun _ => eq_refl) f.
End SlicesId.

(** ** Bucketing *)
Section Bucket.
Lemma placeN_sim (w : list nat) (arr : list (nat * unit)) key x w' arr' :
  place1 (w, arr) key x = Ok (w', arr') -> placeN (w, fst <$> arr) key (fst x) = Ok (w', fst <$> arr').
Proof.
  unfold place1, placeN, get, set_. destruct (w !! key) as [la|] eqn:E1; [|discriminate]. simpl.
  destruct (Nat.ltb_spec key (length w)); simpl; [|discriminate].
  rewrite fmap_length. destruct (la <? length arr); simpl; [|discriminate]. intros [= <- <-]. rewrite list_fmap_insert. reflexivity.
Qed.
Lemma placeN_fold (its : list (nat * (nat * unit))) w arr w' arr' :
  foldM (fun s x => place1 s (fst x) (snd x)) its (w, arr) = Ok (w', arr') ->
  foldM (fun s x => placeN s (fst x) (fst (snd x))) its (w, fst <$> arr) = Ok (w', fst <$> arr').
Proof.
  revert w arr. induction its as [|x its IH]; intros w arr H; [injection H as <- <-; reflexivity|].
  rewrite foldM_cons in H. rewrite foldM_cons. destruct (place1 (w, arr) (fst x) (snd x)) as [[w1 arr1]|] eqn:E; [|discriminate].
  rewrite bind_Ok in H. rewrite (placeN_sim _ _ _ _ _ _ E), bind_Ok. apply IH, H.
Qed.

Definition eitems (edges : list (nat * nat)) : list (nat * (nat * unit)) := (fun e => (snd e, (fst e, tt))) <$> edges.

Lemma bucketPairs_ok (edges : list (nat * nat)) nz n : nz <= length edges -> Forall (fun e : nat * nat => snd e < n) (take nz edges) ->
  bucketPairs edges nz n =
    Ok (pre (bucket (eitems (take nz edges))) <$> seq 0 (n + 1), fst <$> rowsOf (bucket (eitems (take nz edges))) 0 n).
Proof.
  intros Hnz Hall. unfold bucketPairs. set (its := eitems (take nz edges)).
  rewrite (for_foldM edges _ (fun w x => bump w (snd x))) by (first [lia|intros k [r c] s _ Hk; rewrite (get_Some _ _ _ Hk); reflexivity]).
  rewrite Nat.sub_0_r, drop_0. rewrite <- (foldM_fmap bump (fun x : nat * nat => snd x)).
  assert (Hk : (fun x : nat * nat => snd x) <$> take nz edges = fst <$> its) by (unfold its, eitems; rewrite <- list_fmap_compose; reflexivity).
  assert (Hlt : Forall (fun x => fst x < n) its).
  { unfold its, eitems. apply Forall_fmap. eapply Forall_impl; [exact Hall|]. intros [r c] H. exact H. }
  rewrite Hk, count_fold; [|apply Forall_fmap; exact Hlt]. rewrite bind_Ok, pointers_ok, bind_Ok.
  rewrite (list_fmap_ext (psum (cnt (fst <$> its))) (pre (bucket its)) (seq 0 n)) by (intros; apply psum_pre).
  rewrite (list_fmap_ext (psum (cnt (fst <$> its))) (pre (bucket its)) (seq 0 (n + 1))) by (intros; apply psum_pre).
  destruct (place1_fold its n (0, tt) Hlt) as (work' & Hf).
  assert (Hl : length its = nz) by (unfold its, eitems; rewrite fmap_length, take_length; lia).
  rewrite (for_foldM edges _ (fun s x => placeN s (snd x) (fst x))) by (first [lia|intros k [r c] s _ Hk'; rewrite (get_Some _ _ _ Hk'); reflexivity]).
  rewrite Nat.sub_0_r, drop_0.
  apply placeN_fold in Hf. rewrite fmap_replicate in Hf. simpl in Hf. rewrite Hl in Hf.
  assert (E : forall s0, foldM (fun s (x : nat * nat) => placeN s (snd x) (fst x)) (take nz edges) s0 = foldM (fun s x => placeN s (fst x) (fst (snd x))) its s0)
    by (intros s0; unfold its, eitems; rewrite foldM_fmap; reflexivity).
  rewrite E, Hf, bind_Ok. reflexivity.
Qed.
End Bucket.

(** ** The loops *)
Section Loops.
Context {V : Type} (one : V) (ssort : list nat -> list nat).
Notation mem := (gmap loc (cellv V)).
Notation ev := (@event loc (cellv V)).
Hypothesis Hlen : forall l, length (ssort l) = length l.

Definition evR1 (b n : nat) : list ev := mjoin ((fun j => [ERd (aIds, j)]) <$> seq b n).
Fixpoint evW1 (b : nat) (l : list nat) : list ev :=
  match l with [] => [] | c :: l' => EWr (aIds, b) (CN c) :: evW1 (S b) l' end.

Lemma solo_read1 (m : mem) b (l acc : list nat) :
  (forall k c, l !! k = Some c -> m !! (aIds, b + k) = Some (CN c)) ->
  solo m (pfor_n (length l) b (fun j l => pbind (rdCN (aIds, j)) (fun c => Ret (l ++ [c]))) acc) (evR1 b (length l)) (acc ++ l) m.
Proof.
  revert b acc. induction l as [|c l IH]; intros b acc Hm; simpl.
  - rewrite app_nil_r. constructor.
  - pose proof (Hm 0 c eq_refl) as H1. rewrite Nat.add_0_r in H1.
    unfold evR1. cbn [seq]. rewrite fmap_cons, mjoin_cons. simpl.
    eapply solo_rd; [exact H1|]. simpl.
    replace (acc ++ c :: l) with ((acc ++ [c]) ++ l) by (rewrite <- app_assoc; reflexivity).
    apply IH. intros k c' Hk. specialize (Hm (S k) c' Hk). replace (S b + k) with (b + S k) by lia. exact Hm.
Qed.
Lemma solo_write1 (m : mem) b (l : list nat) :
  (forall k, k < length l -> is_Some (m !! (aIds, b + k))) ->
  exists m', solo m (pfor_n (length l) b (fun j it =>
           match it with
           | [] => Fail OutOfBounds
           | c :: it' => Wr (aIds, j) (CN c) (Ret it')
           end) l) (evW1 b l) [] m'.
Proof.
  revert b m. induction l as [|c l IH]; intros b m Hm; simpl.
  - exists m. constructor.
  - pose proof (Hm 0 ltac:(simpl; lia)) as H1. rewrite Nat.add_0_r in H1.
    destruct (IH (S b) (<[(aIds, b) := CN c]> m)) as [m' Hm'].
    { intros k Hk. pose proof (Hm (S k) ltac:(simpl; lia)) as H3. replace (S b + k) with (b + S k) by lia.
      rewrite !lookup_insert_is_Some; right; (split; [intros [=]; lia|]); assumption. }
    exists m'. apply solo_wr; [exact H1|exact Hm'].
Qed.
Lemma evR1_rd b n l : ERd l ∈ evR1 b n <-> fst l = aIds /\ b <= snd l < b + n.
Proof.
  unfold evR1. rewrite elem_of_events. split.
  - intros (i & Hi & He). rewrite elem_of_list_singleton in He. injection He as ->. auto.
  - intros [Ha Hl]. exists (snd l). split; [exact Hl|]. destruct l as [a p]; simpl in *. subst a. left.
Qed.
Lemma evR1_only b n e : e ∈ evR1 b n -> exists l, e = ERd l.
Proof. unfold evR1. rewrite elem_of_events. intros (i & _ & He). rewrite elem_of_list_singleton in He. eauto. Qed.
Lemma evW1_elem b l e : e ∈ evW1 b l <-> exists k c, l !! k = Some c /\ e = EWr (aIds, b + k) (CN c).
Proof.
  revert b. induction l as [|c l IH]; intros b; simpl.
  - split; [intros He; inversion He|intros (k & c & Hk & _); discriminate].
  - rewrite !elem_of_cons, IH. split.
    + intros [->|(k & c' & Hk & He)].
      * exists 0, c. rewrite Nat.add_0_r. auto.
      * exists (S k), c'. replace (b + S k) with (S b + k) by lia. auto.
    + intros ([|k] & c' & Hk & He).
      * injection Hk as <-. rewrite Nat.add_0_r in He. tauto.
      * right. exists k, c'. replace (S b + k) with (b + S k) by lia. auto.
Qed.

Context (f : nat -> list (nat * unit)) (n : nat) (vals0 : list V).
Let g i := (fun c => (c, tt)) <$> ssort (fst <$> f i).
Let ptr := pre f <$> seq 0 (n + 1).

Lemma parfor_sortIds :
  parfor_ends (sortIdsCol ssort ptr) n (arrays (fst <$> rowsOf f 0 n) vals0) (arrays (fst <$> rowsOf g 0 n) vals0) /\
  parfor_race_free (sortIdsCol ssort ptr) n (arrays (fst <$> rowsOf f 0 n) vals0).
Proof.
  set (m0 := arrays (fst <$> rowsOf f 0 n) vals0).
  set (evs := fun i => evR1 (pre f i) (length (f i)) ++ evW1 (pre f i) (fst <$> g i)).
  set (own := fun i (l : loc) => fst l = aIds /\ inSlice f i (snd l)).
  set (wv := fun l : loc => (rowsOf g 0 n !! snd l) ≫= (fun x => Some (@CN V (fst x)))).
  assert (Hgl : forall j, length (g j) = length (f j)) by (intros; unfold g; rewrite fmap_length, Hlen, fmap_length; reflexivity).
  assert (Hgs : forall j, fst <$> g j = ssort (fst <$> f j)) by (intros; unfold g; rewrite <- list_fmap_compose; apply list_fmap_id).
  assert (Hm0 : forall i k c, i < n -> (fst <$> f i) !! k = Some c -> m0 !! (aIds, pre f i + k) = Some (CN c)).
  { intros i k c Hi Hk. pose proof (lookup_lt_Some _ _ _ Hk) as Hl. rewrite fmap_length in Hl. unfold m0. rewrite !arrays_lookup. simpl.
    rewrite !list_lookup_fmap, (rows_at' f n f) by (auto; lia). rewrite list_lookup_fmap in Hk. destruct (f i !! k); [|discriminate]. injection Hk as <-. reflexivity. }
  assert (Hsolo : forall i m, i < n -> (forall l, is_Some (m !! l) <-> is_Some (m0 !! l)) ->
    (forall l, own i l \/ (forall j, j < n -> ~ own j l) -> m !! l = m0 !! l) -> exists mf, solo m (sortIdsCol ssort ptr i) (evs i) tt mf).
  { intros i m Hi Hd Ho.
    assert (Hrow : forall k c, (fst <$> f i) !! k = Some c -> m !! (aIds, pre f i + k) = Some (CN c)).
    { intros k c Hk. pose proof (lookup_lt_Some _ _ _ Hk) as Hl. rewrite fmap_length in Hl. pose proof (Hm0 i k c Hi Hk) as H1.
      rewrite !Ho; [auto|left..]; unfold own, inSlice; rewrite pre_S; simpl; (split; [auto|lia]). }
    destruct (solo_write1 m (pre f i) (fst <$> g i)) as [mf Hmf].
    { intros k Hk. rewrite fmap_length, Hgl in Hk. destruct (lookup_lt_is_Some_2 (fst <$> f i) k) as [c Hc]; [rewrite fmap_length; exact Hk|]. rewrite (Hrow k c Hc). eauto. }
    exists mf. unfold sortIdsCol. eapply solo_lift; [apply ptr_get'; lia|]. eapply solo_lift; [apply ptr_get'; lia|].
    unfold pfor. rewrite Nat.add_1_r, pre_S. replace (pre f i + length (f i) - pre f i) with (length (f i)) by lia.
    unfold evs. eapply solo_bind.
    - pose proof (solo_read1 m (pre f i) (fst <$> f i) [] Hrow) as Hs. rewrite fmap_length in Hs. exact Hs.
    - simpl app. rewrite <- (app_nil_r (evW1 _ _)). eapply solo_bind; [|constructor]. rewrite fmap_length, Hgl in Hmf. rewrite <- Hgs. exact Hmf. }
  assert (Hw : forall i l v, i < n -> EWr l v ∈ evs i -> own i l /\ wv l = Some v).
  { intros i l v Hi Hin. unfold evs in Hin. apply elem_of_app in Hin as [Hin|Hin]; [apply evR1_only in Hin as [? Hin]; discriminate|].
    apply evW1_elem in Hin as (k & c & Hk & He). pose proof (lookup_lt_Some _ _ _ Hk) as Hkl. rewrite fmap_length, Hgl in Hkl.
    rewrite list_lookup_fmap in Hk. injection He as -> ->. unfold own, inSlice, wv. rewrite pre_S. simpl. rewrite (rows_at' f n g) by auto.
    destruct (g i !! k) as [[c' []]|]; [|discriminate]. injection Hk as <-. simpl. split; [split; [auto|lia]|reflexivity]. }
  assert (Hrr : forall i l, ERd l ∈ evs i -> own i l).
  { intros i l Hin. unfold evs in Hin. apply elem_of_app in Hin as [Hin|Hin].
    - apply evR1_rd in Hin as [Ha Hl]. unfold own, inSlice. rewrite pre_S. auto.
    - apply evW1_elem in Hin as (k & c & _ & H); discriminate. }
  assert (Hx : forall i j l, i < n -> j < n -> own i l -> own j l -> i = j) by (intros i j l _ _ [_ H1] [_ H2]; eapply (slice_uniq' f); eauto).
  assert (Hr : forall i j l, i < n -> j < n -> ERd l ∈ evs i -> own j l -> j = i) by (intros i j l Hi Hj Hin Ho; eapply Hx; eauto).
  assert (Ha : forall i j l, i < n -> j < n -> EAny l ∈ evs i -> own j l -> j = i).
  { intros i j l Hi Hj Hin. unfold evs in Hin. apply elem_of_app in Hin as [Hin|Hin]; [apply evR1_only in Hin as [? Hin]; discriminate|].
    apply evW1_elem in Hin as (k & c & _ & H); discriminate. }
  split; [|exact (parfor_owned_race _ n m0 evs own wv Hsolo Hw Hr Ha Hx)].
  destruct (parfor_owned _ n m0 evs own wv Hsolo Hw Hr Ha Hx) as (m' & Hend & Hwr & Hkp).
  replace (arrays (fst <$> rowsOf g 0 n) vals0) with m'; [exact Hend|].
  apply map_eq. intros [a p]. rewrite arrays_lookup, !list_lookup_fmap.
  assert (Hgp : length (rowsOf g 0 n) = pre f n) by (apply (rows_len' f n g), Hgl).
  destruct (decide (a = aIds)) as [->|Hna].
  - destruct (Nat.lt_ge_cases p (pre f n)) as [Hp|Hp].
    + destruct (slice_of' f n p Hp) as (i & Hi & Hs). unfold inSlice in Hs. rewrite pre_S in Hs.
      set (k := p - pre f i). assert (Hk : k < length (f i)) by lia. replace p with (pre f i + k) by lia.
      rewrite (rows_at' f n g) by auto. destruct (lookup_lt_is_Some_2 (g i) k) as [[c v] Hcv]; [rewrite Hgl; exact Hk|]. rewrite Hcv. simpl.
      apply (Hwr i); auto. unfold evs. apply elem_of_app. right. apply evW1_elem. exists k, c. rewrite list_lookup_fmap, Hcv. auto.
    + rewrite (lookup_ge_None_2 (rowsOf g 0 n)) by lia. rewrite Hkp.
      * unfold m0. rewrite arrays_lookup, !list_lookup_fmap. rewrite (lookup_ge_None_2 (rowsOf f 0 n)); [reflexivity|]. rewrite (rows_len' f n f) by auto. exact Hp.
      * intros i v Hi Hin. destruct (Hw i _ _ Hi Hin) as [[_ Ho] _]. unfold inSlice in Ho. simpl in Ho.
        pose proof (pre_le f (S i) n ltac:(lia)). lia.
  - rewrite Hkp.
    + unfold m0. rewrite arrays_lookup. rewrite decide_False by tauto. reflexivity.
    + intros i v Hi Hin. destruct (Hw i _ _ Hi Hin) as [[Ho _] _]. simpl in Ho. tauto.
Qed.
End Loops.

Section Ones.
Context {V : Type} (one : V).
Lemma parfor_ones (ids : list nat) (vals0 : list V) nz : length vals0 = nz ->
  parfor_ends (setOne one) nz (arrays ids vals0) (arrays ids (replicate nz one)) /\
  parfor_race_free (setOne one) nz (arrays ids vals0).
Proof.
  intros Hl. set (m0 := arrays ids vals0).
  set (evs := fun k : nat => [EWr ((aVals, k) : loc) (CV one)]).
  set (own := fun i (l : loc) => l = (aVals, i)).
  set (wv := fun _ : loc => Some (CV one)).
  assert (Hm0 : forall i, i < nz -> is_Some (m0 !! (aVals, i))).
  { intros i Hi. unfold m0. rewrite arrays_lookup. simpl. destruct (lookup_lt_is_Some_2 vals0 i) as [v ->]; [lia|eauto]. }
  assert (Hsolo : forall i m, i < nz -> (forall l, is_Some (m !! l) <-> is_Some (m0 !! l)) ->
    (forall l, own i l \/ (forall j, j < nz -> ~ own j l) -> m !! l = m0 !! l) -> exists mf, solo m (setOne one i) (evs i) tt mf).
  { intros i m Hi Hd _. eexists. apply solo_wr; [apply Hd, Hm0, Hi|constructor]. }
  assert (Hw : forall i l v, i < nz -> EWr l v ∈ evs i -> own i l /\ wv l = Some v).
  { intros i l v Hi Hin. apply elem_of_list_singleton in Hin as [= -> ->]. split; reflexivity. }
  assert (Hx : forall i j l, i < nz -> j < nz -> own i l -> own j l -> i = j) by (intros i j l _ _ H1 H2; congruence).
  assert (Hr : forall i j l, i < nz -> j < nz -> ERd l ∈ evs i -> own j l -> j = i) by (intros i j l _ _ Hin; apply elem_of_list_singleton in Hin; discriminate).
  assert (Ha : forall i j l, i < nz -> j < nz -> EAny l ∈ evs i -> own j l -> j = i) by (intros i j l _ _ Hin; apply elem_of_list_singleton in Hin; discriminate).
  split; [|exact (parfor_owned_race _ nz m0 evs own wv Hsolo Hw Hr Ha Hx)].
  destruct (parfor_owned _ nz m0 evs own wv Hsolo Hw Hr Ha Hx) as (m' & Hend & Hwr & Hkp).
  replace (arrays ids (replicate nz one)) with m'; [exact Hend|].
  apply map_eq. intros [a p]. rewrite arrays_lookup.
  destruct (decide (a = aVals /\ p < nz)) as [[-> Hp]|Hn].
  - simpl. rewrite lookup_replicate_2 by exact Hp. simpl. apply (Hwr p); [exact Hp|left].
  - rewrite Hkp by (intros i v Hi Hin; apply elem_of_list_singleton in Hin as [= -> -> _]; auto). unfold m0. rewrite arrays_lookup.
    destruct (decide (a = aIds)); [reflexivity|]. destruct (decide (a = aVals)) as [->|]; [|reflexivity].
    rewrite !lookup_ge_None_2; [reflexivity|rewrite replicate_length|]; destruct (Nat.lt_ge_cases p nz); [tauto|lia|tauto|lia].
Qed.
End Ones.

Section Pairs.
Context {V : Type} (dflt one : V) (ssort : list nat -> list nat).
Hypothesis sperm : forall l, ssort l ≡ₚ l.
Hypothesis sle : forall l, StronglySorted le (ssort l).

Lemma rowsOf_map {A B} (h : nat -> list (nat * A)) (k : nat * A -> nat * B) n : rowsOf (fun i => k <$> h i) 0 n = k <$> rowsOf h 0 n.
Proof.
  unfold rowsOf. rewrite mjoin_fmap, <- list_fmap_compose. reflexivity.
Qed.

Lemma cscOfPairs_correct (edges : list (nat * nat)) nz m n : nz <= length edges ->
  Forall (fun e : nat * nat => fst e < m /\ snd e < n) (take nz edges) ->
  exists X, cscOfPairs_ends dflt one ssort edges nz m n X /\
    (forall X', cscOfPairs_ends dflt one ssort edges nz m n X' -> X' = X) /\
    (forall ids, bucketPairs edges nz n = Ok (colptr X, ids) ->
       parfor_race_free (sortIdsCol ssort (colptr X)) n (arrays ids (replicate nz dflt)) /\
       forall m1, parfor_ends (sortIdsCol ssort (colptr X)) n (arrays ids (replicate nz dflt)) m1 -> parfor_race_free (setOne one) nz m1) /\
    wf_csc X /\ c_rows X = m /\ c_cols X = n /\ triples_csc X ≡ₚ (fun e => (fst e, snd e, one)) <$> take nz edges /\
    forall j, j < n -> StronglySorted le (fst <$> col_entries X j).
Proof.
  intros Hnz Hall. set (its := eitems (take nz edges)). set (f := bucket its).
  assert (Hlen : forall l, length (ssort l) = length l) by (intros; apply Permutation_length, sperm).
  set (gu := fun i => (fun c => (c, tt)) <$> ssort (fst <$> f i)).
  set (g := fun i => (fun x : nat * unit => (fst x, one)) <$> gu i).
  assert (Hall2 : Forall (fun e : nat * nat => snd e < n) (take nz edges)) by (eapply Forall_impl; [exact Hall|intros e [_ H]; exact H]).
  assert (Hlt : Forall (fun x => fst x < n) its).
  { unfold its, eitems. apply Forall_fmap. exact Hall2. }
  assert (Hgl : forall i, length (g i) = length (f i)) by (intros; unfold g, gu; rewrite !fmap_length, Hlen, fmap_length; reflexivity).
  assert (Hgul : forall i, length (gu i) = length (f i)) by (intros; unfold gu; rewrite !fmap_length, Hlen, fmap_length; reflexivity).
  assert (Hpg : forall i, pre g i = pre f i).
  { induction i as [|i IH]; [reflexivity|]. rewrite !pre_S, IH, Hgl. reflexivity. }
  assert (Htot : pre f n = nz) by (unfold f; rewrite pre_total by exact Hlt; unfold its, eitems; rewrite fmap_length, take_length; lia).
  pose (X := tr_of (assemble g n m)). exists X.
  assert (Hcp : colptr X = pre f <$> seq 0 (n + 1)) by (simpl; apply list_fmap_ext; intros; apply Hpg).
  assert (HX : csc_tr X = assemble g n m) by reflexivity.
  assert (Hgn : length (rowsOf g 0 n) = nz) by (rewrite rowsOf_length, !Hpg, pre_0 by lia; lia).
  assert (Hb : bucketPairs edges nz n = Ok (colptr X, fst <$> rowsOf f 0 n)) by (rewrite Hcp; apply bucketPairs_ok; assumption).
  destruct (parfor_sortIds ssort Hlen f n (replicate nz dflt)) as (Hend & Hrf). fold gu in Hend. rewrite <- Hcp in Hend, Hrf.
  destruct (parfor_ones one (fst <$> rowsOf gu 0 n) (replicate nz dflt) nz (replicate_length _ _)) as (Hend2 & Hrf2).
  assert (Hids : rowids X = fst <$> rowsOf gu 0 n).
  { simpl. unfold g. rewrite (rowsOf_map gu (fun x => (fst x, one))), <- list_fmap_compose. reflexivity. }
  assert (Hvals : c_values X = replicate nz one).
  { simpl. unfold g. rewrite (rowsOf_map gu (fun x => (fst x, one))), <- list_fmap_compose.
    rewrite (list_fmap_ext _ (fun _ => one) (rowsOf gu 0 n)) by reflexivity.
    assert (Hgun : length (rowsOf gu 0 n) = nz) by (rewrite (rows_len' f n gu Hgul); exact Htot).
    revert Hgun. generalize (rowsOf gu 0 n). clear. intros l <-. induction l as [|x l IH]; simpl; [reflexivity|f_equal; exact IH]. }
  assert (Hli : length (rowids X) = nz) by (simpl; rewrite fmap_length; exact Hgn).
  assert (Hlv : length (c_values X) = nz) by (rewrite Hvals; apply replicate_length).
  assert (Hends : cscOfPairs_ends dflt one ssort edges nz m n X).
  { split; [reflexivity|]. split; [reflexivity|]. split; [simpl; rewrite Hpg; exact Htot|]. destruct (Nat.ltb_spec 0 nz) as [Hz|Hz].
    - exists (fst <$> rowsOf f 0 n), (arrays (fst <$> rowsOf gu 0 n) (replicate nz dflt)), (arrays (rowids X) (c_values X)).
      split; [exact Hb|]. split; [exact Hend|]. split; [rewrite Hids, Hvals; exact Hend2|]. auto.
    - assert (nz = 0) as H0 by lia. rewrite Hids, Hvals. rewrite Hids, fmap_length in Hli. rewrite H0 in *. split; [|split; [|reflexivity]].
      + rewrite Hcp, replicate_seq. apply list_fmap_ext. intros i x Hx. apply lookup_seq in Hx as [-> Hx].
        pose proof (pre_le f i n ltac:(lia)). simpl in *. lia.
      + apply nil_length_inv in Hli. rewrite Hli. reflexivity. }
  split; [exact Hends|]. split; [|split; [|split; [|split; [reflexivity|split; [reflexivity|split]]]]].
  - intros X' (H1 & H2 & H3 & H4). destruct Hends as (H1' & H2' & H3' & H4').
    destruct (0 <? nz).
    + destruct H4 as (ids & m1 & m2 & Hb' & He1 & He2 & Hm2 & Hl1 & Hl2). assert (Hcp' : colptr X' = colptr X) by congruence.
      assert (ids = fst <$> rowsOf f 0 n) as -> by congruence. rewrite Hcp' in He1.
      pose proof (parfor_ends_unique _ _ _ _ _ He1 Hend) as ->. pose proof (parfor_ends_unique _ _ _ _ _ He2 Hend2) as ->.
      rewrite <- Hids, <- Hvals in Hm2.
      assert (E1 : rowids X' = rowids X).
      { apply list_eq_same_length with nz; [auto|auto|]. intros p x y Hp Hx Hy.
        pose proof (f_equal (lookup (aIds, p)) Hm2) as E. rewrite !arrays_lookup in E. simpl in E, Hy. rewrite Hx, Hy in E. injection E as ->. reflexivity. }
      assert (E2 : c_values X' = c_values X).
      { apply list_eq_same_length with nz; [auto|auto|]. intros p x y Hp Hx Hy.
        pose proof (f_equal (lookup (aVals, p)) Hm2) as E. rewrite !arrays_lookup in E. simpl in E, Hy. rewrite Hx, Hy in E. injection E as ->. reflexivity. }
      clearbody X. destruct X, X'; simpl in *; congruence.
    + destruct H4 as (H4 & H5 & H6), H4' as (H4' & H5' & H6'). clearbody X. destruct X, X'; simpl in *; congruence.
  - intros ids Hids'. assert (ids = fst <$> rowsOf f 0 n) as -> by congruence. split; [exact Hrf|].
    intros m1 Hm1. rewrite (parfor_ends_unique _ _ _ _ _ Hm1 Hend). exact Hrf2.
  - unfold wf_csc. rewrite HX. apply assemble_wf. intros i c v Hi Hin. unfold g, gu in Hin. apply elem_of_list_fmap in Hin as (x & [= -> ->] & Hin).
    apply elem_of_list_fmap in Hin as (c & -> & Hin). simpl. rewrite sperm in Hin. apply elem_of_list_fmap in Hin as ([c' []] & -> & Hin).
    unfold f, bucket, its, eitems in Hin. apply elem_of_list_fmap in Hin as (x & -> & Hin). apply elem_of_list_filter in Hin as [_ Hin].
    apply elem_of_list_fmap in Hin as (e & -> & Hin). rewrite Forall_forall in Hall. apply (Hall _ Hin).
  - unfold triples_csc, col_entries. rewrite HX. simpl c_cols.
    transitivity (mjoin ((fun i => (fun x => (fst (snd x), fst x, one)) <$> filter (fun x => fst x = i) its) <$> seq 0 n)).
    + apply mjoin_perm. intros j Hj. apply elem_of_seq in Hj. rewrite assemble_row by lia. unfold g, gu. rewrite <- !list_fmap_compose. rewrite (sperm (fst <$> f j)).
      unfold f, bucket. rewrite <- !list_fmap_compose. apply Permutation_refl'. apply list_fmap_ext.
      intros k [r [c v]] Hk. apply elem_of_list_lookup_2, elem_of_list_filter in Hk as [Hr _]. simpl in Hr. simpl. rewrite Hr. reflexivity.
    + assert (E : mjoin ((fun i => (fun x : nat * (nat * unit) => (fst (snd x), fst x, one)) <$> filter (fun x => fst x = i) its) <$> seq 0 n)
        = (fun x : nat * (nat * unit) => (fst (snd x), fst x, one)) <$> mjoin ((fun i => filter (fun x => fst x = i) its) <$> seq 0 n))
        by (rewrite mjoin_fmap, <- list_fmap_compose; reflexivity).
      rewrite E. clear E.
      rewrite (buckets_perm fst its n Hlt). unfold its, eitems. rewrite <- list_fmap_compose. reflexivity.
  - intros j Hj. unfold col_entries. rewrite HX, assemble_row by exact Hj. unfold g, gu. rewrite <- !list_fmap_compose.
    rewrite (list_fmap_ext _ (fun c => c) (ssort _)) by reflexivity. rewrite list_fmap_id. apply sle.
Qed.
End Pairs.
