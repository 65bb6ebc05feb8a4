(** The parallel loops of MergeDuplicates where v_rowids and v_values have an element for every column. *)
From stdpp Require Import numbers.
From Verif Require Import MatModel PairsModel BaseProofs ConcProofs ParProofs ScanProofs WorkProofs Assemble MatProofs MatSpec ConvProofs SortProofs MatStatements PairsProofs MergeProofs.
From Verif Require DriverBase.
From Verif Require Import Base Spec.

Local Arguments mergeCol : simpl never.
Section Loops.
Context {V : Type} (dflt : V) (add : V -> V -> V) (X : csc V) (Hwf : wf_csc X).
Notation mem := (gmap loc (mcell V)).
Notation ev := (@event loc (mcell V)).
Let n := c_cols X.
Let f := col_entries X.
Let h i := merged add (f i).

Lemma csc_eq : csc_tr X = assemble f n (c_rows X).
Proof. exact (wf_assemble (csc_tr X) Hwf). Qed.
Lemma cp_eq : colptr X = pre f <$> seq 0 (n + 1).
Proof. exact (f_equal rowptr csc_eq). Qed.
Lemma ids_eq : rowids X = fst <$> rowsOf f 0 n.
Proof. exact (f_equal colids csc_eq). Qed.
Lemma vals_eq : c_values X = snd <$> rowsOf f 0 n.
Proof. exact (f_equal values csc_eq). Qed.
Lemma nnz_eq : c_nnz X = pre f n.
Proof. exact (f_equal nnz csc_eq). Qed.

Lemma col_stored i : i < n -> stored (rowids X) (c_values X) (pre f (S i)) (pre f i) (f i).
Proof.
  intros Hi. split; [apply pre_S|]. intros k r v Hk. pose proof (lookup_lt_Some _ _ _ Hk) as Hl.
  rewrite ids_eq, vals_eq, !list_lookup_fmap, !(rows_at' f n f) by auto. rewrite Hk. auto.
Qed.

Lemma adj_ok : adjacentDifference (colptr X) n = Ok ((fun i => length (f i)) <$> seq 0 n).
Proof.
  unfold adjacentDifference.
  destruct (for_inv (fun k (d : list nat) => d = (fun i => if decide (i < k) then length (f i) else 0) <$> seq 0 n)
    (fun k d => x <- get (colptr X) (k + 1) ;; y <- (if k =? 0 then Ok 0 else get (colptr X) k) ;; set_ d k (x - y)) 0 n (replicate n 0)) as (d & -> & ->).
  - lia.
  - rewrite replicate_seq. apply list_fmap_ext. intros i x _. rewrite decide_False by lia. reflexivity.
  - intros i d Hi ->. rewrite cp_eq, (ptr_get' f n) by lia. rewrite bind_Ok.
    assert (E : (if i =? 0 then Ok 0 else get (pre f <$> seq 0 (n + 1)) i) = Ok (pre f i)).
    { destruct (Nat.eqb_spec i 0) as [->|]; [reflexivity|]. apply (ptr_get' f n). lia. }
    rewrite E, bind_Ok, set_Ok by (rewrite seq_fmap_length; lia). eexists. split; [reflexivity|].
    rewrite Nat.add_1_r, pre_S. replace (pre f i + length (f i) - pre f i) with (length (f i)) by lia.
    rewrite <- (seq_fmap_insert (fun j => if decide (j < i) then length (f j) else 0) (fun j => if decide (j < S i) then length (f j) else 0) n i).
    + rewrite decide_True by lia. reflexivity.
    + lia.
    + intros j Hj Hne. destruct (decide (j < i)); [rewrite decide_True by lia|rewrite decide_False by lia]; reflexivity.
  - f_equal. apply list_fmap_ext. intros i x Hx. apply lookup_seq in Hx as [-> Hi]. rewrite decide_True by lia. reflexivity.
Qed.

(** ** Memory: the two vectors and diff *)
Definition mem3 (a : nat -> list nat) (b : nat -> list V) (c : nat -> nat) : mem :=
  cells aVR ((fun i => MI (a i)) <$> seq 0 n) ∪ (cells aVV ((fun i => MV (b i)) <$> seq 0 n) ∪ cells aDiff ((fun i => MD (c i)) <$> seq 0 n)).
Lemma mem3_lookup a b c x i : mem3 a b c !! (x, i) =
  if decide (i < n) then
    if decide (x = aVR) then Some (MI (a i)) else if decide (x = aVV) then Some (MV (b i)) else if decide (x = aDiff) then Some (MD (c i)) else None
  else None.
Proof.
  unfold mem3. rewrite !lookup_union, !cells_lookup. destruct (decide (i < n)) as [Hi|Hi].
  - rewrite !seq_fmap_lookup by exact Hi. destruct (decide (x = aVR)) as [->|]; [reflexivity|].
    destruct (decide (x = aVV)) as [->|]; [reflexivity|]. destruct (decide (x = aDiff)); reflexivity.
  - rewrite !(lookup_ge_None_2 (_ <$> seq 0 n)) by (rewrite seq_fmap_length; lia).
    destruct (decide (x = aVR)), (decide (x = aVV)), (decide (x = aDiff)); reflexivity.
Qed.
Lemma mergeMem_eq : mergeMem n ((fun i => length (f i)) <$> seq 0 n) = mem3 (fun _ => []) (fun _ => []) (fun i => length (f i)).
Proof. unfold mergeMem, mem3. rewrite !replicate_seq, <- list_fmap_compose. reflexivity. Qed.

Definition m1_ : mem := mem3 (fun i => fst <$> h i) (fun i => snd <$> h i) (fun i => length (h i)).

(** ** The first loop *)
Lemma parfor_merge :
  parfor_ends (mergeBody add n X) n (mergeMem n ((fun i => length (f i)) <$> seq 0 n)) m1_ /\
  parfor_race_free (mergeBody add n X) n (mergeMem n ((fun i => length (f i)) <$> seq 0 n)).
Proof.
  rewrite mergeMem_eq. set (m0 := mem3 (fun _ => []) (fun _ => []) (fun i => length (f i))).
  set (evs := fun i : nat => if 0 <? length (f i) then
    [ERd ((aVR, i) : loc); ERd (aVV, i); ERd (aDiff, i); EWr (aVR, i) (@MI V (fst <$> h i)); EWr (aVV, i) (MV (snd <$> h i)); EWr (aDiff, i) (MD (length (h i)))] else []).
  set (own := fun i (l : loc) => snd l = i).
  set (wv := fun l : loc => m1_ !! l).
  assert (Hsolo : forall i m, i < n -> (forall l, is_Some (m !! l) <-> is_Some (m0 !! l)) ->
    (forall l, own i l \/ (forall j, j < n -> ~ own j l) -> m !! l = m0 !! l) -> exists mf, solo m (mergeBody add n X i) (evs i) tt mf).
  { intros i m Hi Hd Ho.
    assert (Hv : forall a x, m0 !! (a, i) = Some x -> m !! (a, i) = Some x) by (intros a x E; rewrite Ho; [exact E|left; reflexivity]).
    pose proof (Hv aVR (MI [])) as H2. pose proof (Hv aVV (MV [])) as H3. pose proof (Hv aDiff (MD (length (f i)))) as H4.
    unfold m0 in H2, H3, H4. rewrite mem3_lookup, decide_True in H2, H3, H4 by exact Hi. simpl in H2, H3, H4.
    specialize (H2 eq_refl). specialize (H3 eq_refl). specialize (H4 eq_refl).
    unfold mergeBody, evs.
    destruct (Nat.ltb_spec 0 (length (f i))) as [Hpos|Hz].
    - eexists. eapply solo_lift; [rewrite cp_eq; apply (ptr_get' f n); lia|]. eapply solo_lift; [rewrite cp_eq; apply (ptr_get' f n); lia|].
      rewrite Nat.add_1_r. pose proof (pre_S f i) as HS. destruct (Nat.ltb_spec (pre f i) (pre f (S i))); [|lia].
      eapply solo_lift; [unfold inner; destruct (Nat.ltb_spec i n); [reflexivity|lia]|].
      eapply solo_rd; [exact H2|]. simpl. eapply solo_rd; [exact H3|]. simpl. eapply solo_rd; [exact H4|]. simpl.
      eapply solo_lift; [apply (mergeCol_ok add _ _ _ (f i)); [apply col_stored, Hi|lia|lia]|]. simpl.
      pose proof (merged_le add (f i)). replace (length (f i) - (length (f i) - length (merged add (f i)))) with (length (h i)) by (unfold h; lia).
      fold (h i). apply solo_wr; [eauto|]. apply solo_wr; [rewrite lookup_insert_ne by (intros [=]); eauto|].
      apply solo_wr; [rewrite !lookup_insert_ne by (intros [=]); eauto|constructor].
    - exists m. eapply solo_lift; [rewrite cp_eq; apply (ptr_get' f n); lia|]. eapply solo_lift; [rewrite cp_eq; apply (ptr_get' f n); lia|].
      rewrite Nat.add_1_r. pose proof (pre_S f i) as HS. destruct (Nat.ltb_spec (pre f i) (pre f (S i))); [lia|]. constructor. }
  assert (Hel : forall i e, e ∈ evs i -> (exists a, e = ERd (a, i)) \/ e = EWr (aVR, i) (MI (fst <$> h i)) \/ e = EWr (aVV, i) (MV (snd <$> h i)) \/ e = EWr (aDiff, i) (MD (length (h i)))).
  { intros i e He. unfold evs in He. destruct (0 <? length (f i)); [|inversion He]. rewrite !elem_of_cons, elem_of_nil in He.
    destruct He as [->|[->|[->|[->|[->|[->|[]]]]]]]; eauto. }
  assert (Hw : forall i l v, i < n -> EWr l v ∈ evs i -> own i l /\ wv l = Some v).
  { intros i l v Hi Hin. apply Hel in Hin as [[a Hin]|[Hin|[Hin|Hin]]]; [discriminate| | |];
      injection Hin as -> ->; (split; [reflexivity|]); unfold wv, m1_; rewrite mem3_lookup, decide_True by exact Hi; reflexivity. }
  assert (Hx : forall i j l, i < n -> j < n -> own i l -> own j l -> i = j) by (unfold own; intros i j l _ _ H1 H2; congruence).
  assert (Hr : forall i j l, i < n -> j < n -> ERd l ∈ evs i -> own j l -> j = i).
  { unfold own. intros i j l _ _ Hin <-. apply Hel in Hin as [[a [= ->]]|[Hin|[Hin|Hin]]]; [reflexivity|discriminate..]. }
  assert (Ha : forall i j l, i < n -> j < n -> EAny l ∈ evs i -> own j l -> j = i).
  { intros i j l _ _ Hin. apply Hel in Hin as [[a Hin]|[Hin|[Hin|Hin]]]; discriminate. }
  split; [|exact (parfor_owned_race _ n m0 evs own wv Hsolo Hw Hr Ha Hx)].
  destruct (parfor_owned _ n m0 evs own wv Hsolo Hw Hr Ha Hx) as (m' & Hend & Hwr & Hkp).
  replace m1_ with m'; [exact Hend|].
  apply map_eq. intros [a i]. unfold m1_. rewrite mem3_lookup. destruct (decide (i < n)) as [Hi|Hi].
  - destruct (Nat.ltb_spec 0 (length (f i))) as [Hpos|Hz].
    + assert (He : evs i = [ERd ((aVR, i) : loc); ERd (aVV, i); ERd (aDiff, i); EWr (aVR, i) (@MI V (fst <$> h i)); EWr (aVV, i) (MV (snd <$> h i)); EWr (aDiff, i) (MD (length (h i)))]).
      { unfold evs. destruct (Nat.ltb_spec 0 (length (f i))); [reflexivity|lia]. }
      destruct (decide (a = aVR)) as [->|N1]; [apply (Hwr i); [exact Hi|rewrite He; do 3 right; left]|].
      destruct (decide (a = aVV)) as [->|N2]; [apply (Hwr i); [exact Hi|rewrite He; do 4 right; left]|].
      destruct (decide (a = aDiff)) as [->|N3]; [apply (Hwr i); [exact Hi|rewrite He; do 5 right; left]|].
      rewrite Hkp.
      * unfold m0. rewrite mem3_lookup, decide_True by exact Hi. rewrite !decide_False by assumption. reflexivity.
      * intros j v Hj Hin. apply Hel in Hin as [[a' Hin]|[Hin|[Hin|Hin]]]; [discriminate| | |]; injection Hin as -> -> _; congruence.
    + assert (E : f i = []) by (apply nil_length_inv; lia). rewrite Hkp.
      * unfold m0. rewrite mem3_lookup, decide_True by exact Hi. unfold h. rewrite E. reflexivity.
      * intros j v Hj Hin. pose proof (Hw j _ v Hj Hin) as [Ho _]. unfold own in Ho. simpl in Ho. subst j.
        unfold evs in Hin. rewrite E in Hin. simpl in Hin. inversion Hin.
  - rewrite Hkp.
    + unfold m0. rewrite mem3_lookup, decide_False by exact Hi. reflexivity.
    + intros j v Hj Hin. pose proof (Hw j _ v Hj Hin) as [Ho _]. unfold own in Ho. simpl in Ho. congruence.
Qed.

Lemma noent_mem : c_nnz X = 0 -> mergeMem n ((fun i => length (f i)) <$> seq 0 n) = m1_.
Proof.
  intros Hz. rewrite mergeMem_eq. apply map_eq. intros [a i]. unfold m1_. rewrite !mem3_lookup.
  destruct (decide (i < n)) as [Hi|]; [|reflexivity].
  assert (E : f i = []). { apply nil_length_inv. pose proof (pre_le f (S i) n ltac:(lia)). rewrite pre_S, <- nnz_eq in H. lia. }
  unfold h. rewrite E. reflexivity.
Qed.

Lemma newPtr_ok : newPtr (colptr X) ((fun i => length (h i)) <$> seq 0 n) n = Ok (pre h <$> seq 0 (n + 1)).
Proof.
  unfold newPtr. rewrite cumulativeSum_ok, bind_Ok.
  assert (Hp : forall k, psum (fun i => length (h i)) k = pre h k) by reflexivity.
  assert (Hcl : length (colptr X) = n + 1) by (rewrite cp_eq; apply seq_fmap_length).
  rewrite set_Ok by lia. rewrite bind_Ok.
  destruct (copyRange_ok (psum (fun i => length (h i)) <$> seq 0 n) n (<[n := psum (fun i => length (h i)) n]> (colptr X)) 0) as (d & -> & Hl & H1 & H2).
  - rewrite seq_fmap_length. lia.
  - rewrite insert_length. lia.
  - f_equal. apply list_seq_ext; [rewrite Hl, insert_length; lia|].
    intros i Hi. destruct (decide (i = n)) as [->|Hne].
    + rewrite H2 by lia. rewrite <- Hp. apply list_lookup_insert. lia.
    + rewrite <- Hp, <- (seq_fmap_lookup (psum (fun i => length (h i))) n i) by lia. apply (H1 i). lia.
Qed.

(** ** The last loop *)
Section Copy.
Context {A : Type} (inj : A -> mcell V) (a : nat).
Fixpoint evC (b : nat) (l : list A) : list ev := match l with [] => [] | x :: l' => EWr (a, b) (inj x) :: evC (S b) l' end.
Lemma evC_elem b l e : e ∈ evC b l <-> exists k x, l !! k = Some x /\ e = EWr (a, b + k) (inj x).
Proof.
  clear. revert b. induction l as [|c l IH]; intros b; simpl.
  - split; [intros He; inversion He|intros (k & c & Hk & _); discriminate].
  - rewrite !elem_of_cons, IH. split.
    + intros [->|(k & c' & Hk & He)].
      * exists 0, c. rewrite Nat.add_0_r. auto.
      * exists (S k), c'. replace (b + S k) with (S b + k) by lia. auto.
    + intros ([|k] & c' & Hk & He).
      * injection Hk as <-. rewrite Nat.add_0_r in He. tauto.
      * right. exists k, c'. replace (S b + k) with (b + S k) by lia. auto.
Qed.
Lemma solo_copyOut (m : mem) b (l : list A) : (forall k, k < length l -> is_Some (m !! (a, b + k))) ->
  exists m', solo m (copyOut inj a b l) (evC b l) tt m' /\ (forall x, fst x <> a -> m' !! x = m !! x).
Proof.
  clear. intros Hm. unfold copyOut, pfor. replace (b + length l - b) with (length l) by lia.
  assert (HH : exists m', solo m (pfor_n (length l) b (fun p it => match it with [] => Fail OutOfBounds | x :: it' => Wr (a, p) (inj x) (Ret it') end) l) (evC b l) [] m' /\
    (forall x : loc, fst x <> a -> m' !! x = m !! x)).
  { revert b m Hm. induction l as [|c l IH]; intros b m Hm; simpl.
    - exists m. split; [constructor|auto].
    - pose proof (Hm 0 ltac:(simpl; lia)) as H1. rewrite Nat.add_0_r in H1.
      destruct (IH (S b) (<[(a, b) := inj c]> m)) as (m' & Hm' & Hk').
      { intros k Hk. pose proof (Hm (S k) ltac:(simpl; lia)) as H3. replace (S b + k) with (b + S k) by lia.
        rewrite !lookup_insert_is_Some; right; (split; [intros [=]; lia|]); assumption. }
      exists m'. split; [apply solo_wr; [exact H1|exact Hm']|]. intros x Hx. rewrite Hk' by exact Hx. apply lookup_insert_ne. intros <-. apply Hx. reflexivity. }
  destruct HH as (m' & Hs & Hk). exists m'. split; [|exact Hk]. rewrite <- (app_nil_r (evC b l)). eapply solo_bind; [exact Hs|constructor].
Qed.
End Copy.

Let tot := pre h n.
Lemma h_len : length (rowsOf h 0 n) = tot.
Proof. clear. unfold tot. rewrite rowsOf_length, pre_0 by lia. lia. Qed.
Lemma newArrays_lookup (ids : list nat) (vals : list V) x p : newArrays ids vals !! (x, p) =
  if decide (x = aIds) then XI <$> ids !! p else if decide (x = aVals) then XV <$> vals !! p else None.
Proof.
  clear. unfold newArrays. rewrite lookup_union, !cells_lookup, !list_lookup_fmap.
  destruct (decide (x = aIds)) as [->|]; [simpl; destruct (ids !! p); reflexivity|].
  destruct (decide (x = aVals)) as [->|]; [simpl; destruct (vals !! p); reflexivity|reflexivity].
Qed.

Lemma parfor_copy :
  let m0 := newArrays (replicate tot 0) (replicate tot dflt) ∪ m1_ in
  exists m2, parfor_ends (copyBody n (pre h <$> seq 0 (n + 1))) n m0 m2 /\
    parfor_race_free (copyBody n (pre h <$> seq 0 (n + 1))) n m0 /\
    newArrays (fst <$> rowsOf h 0 n) (snd <$> rowsOf h 0 n) ⊆ m2.
Proof.
  intros m0.
  set (evs := fun i : nat => [ERd ((aVR, i) : loc)] ++ evC XI aIds (pre h i) (fst <$> h i) ++ [ERd (aVV, i)] ++ evC XV aVals (pre h i) (snd <$> h i)).
  set (own := fun i (l : loc) => (fst l = aIds \/ fst l = aVals) /\ inSlice h i (snd l)).
  set (wv := fun l : loc => newArrays (fst <$> rowsOf h 0 n) (snd <$> rowsOf h 0 n) !! l).
  assert (Hnew : forall x p, x = aIds \/ x = aVals -> p < tot -> is_Some (m0 !! (x, p))).
  { intros x p Hx Hp. unfold m0. rewrite lookup_union_is_Some. left. rewrite newArrays_lookup, !lookup_replicate_2 by exact Hp. destruct Hx as [->| ->]; simpl; eauto. }
  assert (Hold : forall i, i < n -> m0 !! (aVR, i) = Some (MI (fst <$> h i)) /\ m0 !! (aVV, i) = Some (MV (snd <$> h i))).
  { intros i Hi. unfold m0. rewrite !lookup_union, !newArrays_lookup. unfold m1_. rewrite !mem3_lookup, !(decide_True (P := i < n)) by exact Hi. auto. }
  assert (Hin : forall i k, i < n -> k < length (h i) -> pre h i + k < tot).
  { intros i k Hi Hk. pose proof (pre_le h (S i) n ltac:(lia)) as Hle. rewrite pre_S in Hle. unfold tot. lia. }
  assert (Hsolo : forall i m, i < n -> (forall l, is_Some (m !! l) <-> is_Some (m0 !! l)) ->
    (forall l, own i l \/ (forall j, j < n -> ~ own j l) -> m !! l = m0 !! l) -> exists mf, solo m (copyBody n (pre h <$> seq 0 (n + 1)) i) (evs i) tt mf).
  { intros i m Hi Hd Ho. destruct (Hold i Hi) as [H2 H3].
    assert (H2' : m !! (aVR, i) = Some (MI (fst <$> h i))) by (rewrite Ho; [exact H2|right; intros j _ [[E|E] _]; discriminate]).
    assert (H3' : m !! (aVV, i) = Some (MV (snd <$> h i))) by (rewrite Ho; [exact H3|right; intros j _ [[E|E] _]; discriminate]).
    destruct (solo_copyOut XI aIds m (pre h i) (fst <$> h i)) as (ma & Hsa & Hka).
    { intros k Hk. rewrite fmap_length in Hk. apply Hd, Hnew; [auto|apply Hin; assumption]. }
    destruct (solo_copyOut XV aVals ma (pre h i) (snd <$> h i)) as (mb & Hsb & _).
    { intros k Hk. rewrite fmap_length in Hk. rewrite Hka by discriminate. apply Hd, Hnew; [auto|apply Hin; assumption]. }
    exists mb. unfold copyBody, evs. eapply solo_lift; [unfold inner; destruct (Nat.ltb_spec i n); [reflexivity|lia]|].
    eapply solo_rd; [exact H2'|]. simpl. eapply solo_lift; [apply (ptr_get' h n); lia|].
    eapply solo_bind; [exact Hsa|]. eapply solo_rd; [rewrite Hka by discriminate; exact H3'|]. simpl. exact Hsb. }
  assert (Hat : forall i k, i < n -> k < length (h i) -> rowsOf h 0 n !! (pre h i + k) = h i !! k) by (intros i k Hi Hk; apply (rows_at' h n h); auto).
  assert (Hel : forall i e, e ∈ evs i -> (e = ERd (aVR, i) \/ e = ERd (aVV, i)) \/
     exists k r v, h i !! k = Some (r, v) /\ (e = EWr (aIds, pre h i + k) (XI r) \/ e = EWr (aVals, pre h i + k) (XV v))).
  { intros i e He. unfold evs in He. rewrite !elem_of_app, !elem_of_list_singleton, !evC_elem in He.
    destruct He as [->|[(k & x & Hk & ->)|[->|(k & x & Hk & ->)]]]; [auto| |auto|]; right; rewrite list_lookup_fmap in Hk;
      destruct (h i !! k) as [[r v]|] eqn:E; try discriminate; injection Hk as <-; exists k, r, v; auto. }
  assert (Hw : forall i l v, i < n -> EWr l v ∈ evs i -> own i l /\ wv l = Some v).
  { intros i l v Hi He. apply Hel in He as [[E|E]|(k & r & w & Hk & He)]; [discriminate..|]. pose proof (lookup_lt_Some _ _ _ Hk) as Hkl.
    destruct He as [E|E]; injection E as -> ->; unfold own, inSlice, wv; rewrite pre_S, newArrays_lookup; simpl;
      rewrite list_lookup_fmap, Hat, Hk by assumption; (split; [split; [auto|lia]|reflexivity]). }
  assert (Hx : forall i j l, i < n -> j < n -> own i l -> own j l -> i = j) by (intros i j l _ _ [_ H1] [_ H2]; eapply (slice_uniq' h); eauto).
  assert (Hr : forall i j l, i < n -> j < n -> ERd l ∈ evs i -> own j l -> j = i).
  { intros i j l _ _ He [Ho _]. apply Hel in He as [[E|E]|(k & r & w & _ & [E|E])]; try discriminate; injection E as ->; simpl in Ho; destruct Ho; discriminate. }
  assert (Ha : forall i j l, i < n -> j < n -> EAny l ∈ evs i -> own j l -> j = i).
  { intros i j l _ _ He _. apply Hel in He as [[E|E]|(k & r & w & _ & [E|E])]; discriminate. }
  destruct (parfor_owned _ n m0 evs own wv Hsolo Hw Hr Ha Hx) as (m' & Hend & Hwr & Hkp).
  exists m'. split; [exact Hend|]. split; [exact (parfor_owned_race _ n m0 evs own wv Hsolo Hw Hr Ha Hx)|].
  apply map_subseteq_spec. intros [x p] c Hc. rewrite newArrays_lookup, !list_lookup_fmap in Hc.
  assert (Hp : p < tot).
  { destruct (Nat.lt_ge_cases p tot) as [|Hge]; [assumption|]. rewrite (lookup_ge_None_2 (rowsOf h 0 n)) in Hc by (rewrite h_len; exact Hge).
    destruct (decide (x = aIds)), (decide (x = aVals)); discriminate. }
  destruct (slice_of' h n p Hp) as (i & Hi & Hs). unfold inSlice in Hs. rewrite pre_S in Hs.
  set (k := p - pre h i). assert (Hk : k < length (h i)) by (unfold k; lia). replace p with (pre h i + k) in Hc |- * by (unfold k; lia).
  rewrite Hat in Hc by assumption. destruct (h i !! k) as [[r v]|] eqn:E; [|apply lookup_ge_None_1 in E; lia].
  destruct (decide (x = aIds)) as [->|]; [|destruct (decide (x = aVals)) as [->|]; [|discriminate]]; simpl in Hc; injection Hc as <-.
  - apply (Hwr i); [exact Hi|]. unfold evs. apply elem_of_app. right. apply elem_of_app. left. apply evC_elem. exists k, r. rewrite list_lookup_fmap, E. auto.
  - apply (Hwr i); [exact Hi|]. unfold evs. apply elem_of_app. right. apply elem_of_app. right. apply elem_of_app. right. apply evC_elem. exists k, v. rewrite list_lookup_fmap, E. auto.
Qed.

(** ** The whole function *)
Theorem mergeN_correct : exists X', mergeN_ends dflt add n X X' /\ (forall X2, mergeN_ends dflt add n X X2 -> X2 = X') /\
  (forall diff m1, adjacentDifference (colptr X) n = Ok diff -> parfor_race_free (mergeBody add n X) n (mergeMem n diff) /\
     (parfor_ends (mergeBody add n X) n (mergeMem n diff) m1 ->
      parfor_race_free (copyBody n (colptr X')) n (newArrays (replicate (c_nnz X') 0) (replicate (c_nnz X') dflt) ∪ m1))) /\
  wf_csc X' /\ c_rows X' = c_rows X /\ c_cols X' = c_cols X /\ forall j, j < c_cols X -> col_entries X' j = merged add (col_entries X j).
Proof.
  pose (X' := tr_of (assemble h n (c_rows X))). exists X'.
  assert (HX : csc_tr X' = assemble h n (c_rows X)) by reflexivity.
  destruct parfor_merge as [Hend1 Hrf1]. destruct parfor_copy as (m2 & Hend2 & Hrf2 & Hsub).
  assert (Hif : forall m, (if 0 <? c_nnz X then parfor_ends (mergeBody add n X) n (mergeMem n ((fun i => length (f i)) <$> seq 0 n)) m
     else m = mergeMem n ((fun i => length (f i)) <$> seq 0 n)) <-> m = m1_).
  { intros m. destruct (Nat.ltb_spec 0 (c_nnz X)) as [Hz|Hz].
    - split; [intros He; exact (parfor_ends_unique _ _ _ _ _ He Hend1)|intros ->; exact Hend1].
    - rewrite noent_mem by lia. reflexivity. }
  assert (Hdiff : forall d, cells aDiff (MD <$> d) ⊆ m1_ /\ length d = n <-> d = (fun i => length (h i)) <$> seq 0 n).
  { intros d. split.
    - intros [Hs Hl]. apply list_seq_ext; [exact Hl|]. intros i Hi. destruct (lookup_lt_is_Some_2 d i) as [x Hx]; [lia|]. rewrite Hx.
      assert (E : cells aDiff (@MD V <$> d) !! (aDiff, i) = Some (MD x)) by (rewrite cells_lookup, decide_True, list_lookup_fmap, Hx by reflexivity; reflexivity).
      pose proof (lookup_weaken _ _ _ _ E Hs) as E2. unfold m1_ in E2. rewrite mem3_lookup, decide_True in E2 by exact Hi. simpl in E2. congruence.
    - intros ->. split; [|apply seq_fmap_length]. apply map_subseteq_spec. intros [x i] c Hc. rewrite cells_lookup in Hc.
      destruct (decide (x = aDiff)) as [->|]; [|discriminate]. rewrite list_lookup_fmap in Hc.
      destruct (Nat.lt_ge_cases i n) as [Hi|Hi]; [|rewrite lookup_ge_None_2 in Hc by (rewrite seq_fmap_length; exact Hi); discriminate].
      rewrite seq_fmap_lookup in Hc by exact Hi. unfold m1_. rewrite mem3_lookup, decide_True by exact Hi. exact Hc. }
  assert (Hlast : (pre h <$> seq 0 (n + 1)) !! n = Some tot) by (apply seq_fmap_lookup; lia).
  assert (Hli : length (rowids X') = tot) by (simpl; rewrite fmap_length; apply h_len).
  assert (Hlv : length (c_values X') = tot) by (simpl; rewrite fmap_length; apply h_len).
  split; [|split; [|split; [|split; [|split; [reflexivity|split; [reflexivity|]]]]]].
  - split; [reflexivity|]. split; [reflexivity|]. exists ((fun i => length (f i)) <$> seq 0 n), ((fun i => length (h i)) <$> seq 0 n), m1_, m2.
    split; [apply adj_ok|]. split; [apply Hif; reflexivity|]. split; [apply Hdiff; reflexivity|]. split; [apply seq_fmap_length|].
    split; [apply newPtr_ok|]. split; [exact Hlast|]. split; [exact Hend2|]. auto.
  - intros X2 (H1 & H2 & diff & diff1 & ma & mb & Hd & Hm & Hs & Hl & Hp & Hn & He & Hsub2 & Hl1 & Hl2). fold n in Hd, Hm, Hl, Hp, Hn, He.
    assert (diff = (fun i => length (f i)) <$> seq 0 n) as -> by (rewrite adj_ok in Hd; congruence).
    apply Hif in Hm as ->. assert (diff1 = (fun i => length (h i)) <$> seq 0 n) as -> by (apply Hdiff; auto).
    rewrite newPtr_ok in Hp. injection Hp as Hp. rewrite <- Hp in Hn, He. rewrite Hlast in Hn. injection Hn as Hn. rewrite <- Hn in He, Hl1, Hl2.
    pose proof (parfor_ends_unique _ _ _ _ _ He Hend2) as ->.
    assert (E1 : rowids X2 = rowids X').
    { apply list_eq_same_length with tot; [auto|auto|]. intros p x y Hpt Hx Hy.
      assert (Hx' : newArrays (rowids X2) (c_values X2) !! (aIds, p) = Some (XI x)) by (rewrite newArrays_lookup; simpl; rewrite Hx; reflexivity).
      assert (Hy' : newArrays (rowids X') (c_values X') !! (aIds, p) = Some (XI y)) by (rewrite newArrays_lookup; simpl in *; rewrite Hy; reflexivity).
      pose proof (lookup_weaken _ _ _ _ Hx' Hsub2). pose proof (lookup_weaken _ _ _ _ Hy' Hsub). congruence. }
    assert (E2 : c_values X2 = c_values X').
    { apply list_eq_same_length with tot; [auto|auto|]. intros p x y Hpt Hx Hy.
      assert (Hx' : newArrays (rowids X2) (c_values X2) !! (aVals, p) = Some (XV x)) by (rewrite newArrays_lookup; simpl; rewrite Hx; reflexivity).
      assert (Hy' : newArrays (rowids X') (c_values X') !! (aVals, p) = Some (XV y)) by (rewrite newArrays_lookup; simpl in *; rewrite Hy; reflexivity).
      pose proof (lookup_weaken _ _ _ _ Hx' Hsub2). pose proof (lookup_weaken _ _ _ _ Hy' Hsub). congruence. }
    assert (E3 : colptr X' = colptr X2) by exact Hp. assert (E4 : c_nnz X' = c_nnz X2) by exact Hn.
    assert (E5 : c_rows X' = c_rows X2) by (symmetry; exact H1). assert (E6 : c_cols X' = c_cols X2) by (symmetry; exact H2).
    clear - E1 E2 E3 E4 E5 E6. clearbody X'. destruct X', X2; simpl in *; congruence.
  - intros diff m1 Hd. assert (diff = (fun i => length (f i)) <$> seq 0 n) as -> by (rewrite adj_ok in Hd; congruence).
    split; [exact Hrf1|]. intros He. rewrite (parfor_ends_unique _ _ _ _ _ He Hend1). exact Hrf2.
  - unfold wf_csc. rewrite HX. apply assemble_wf. intros i c v Hi Hc.
    assert (Hcf : c ∈ fst <$> f i).
    { clear -Hc. unfold h in Hc. apply (elem_of_list_fmap_1 fst) in Hc. simpl in Hc. revert Hc. generalize (f i). intros l.
      assert (Hm : forall l r v, c ∈ fst <$> mrg add r v l -> c = r \/ c ∈ fst <$> l).
      { clear. induction l as [|[r' v'] l IH]; intros r v; simpl; [rewrite elem_of_list_singleton; auto|].
        destruct (Nat.eqb_spec r r') as [<-|]; rewrite ?fmap_cons, ?elem_of_cons; simpl; [intros Hin; destruct (IH _ _ Hin); auto|].
        intros [->|Hin]; [auto|]. destruct (IH _ _ Hin); auto. }
      destruct l as [|[r v0] l]; simpl; [auto|]. intros Hin. rewrite elem_of_cons. apply Hm in Hin as [->|Hin]; auto. }
    apply elem_of_list_fmap in Hcf as ([c' v'] & -> & Hin). simpl. exact (row_entries_range (csc_tr X) i c' v' Hwf Hin).
  - intros j Hj. unfold col_entries at 1. rewrite HX. exact (assemble_row h n (c_rows X) j Hj).
Qed.
End Loops.
