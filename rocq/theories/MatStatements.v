(** Statements about conversion, row sorting and construction from triples. *)
From stdpp Require Import numbers sorting.
From Verif Require Import MatModel BaseProofs ConcProofs ParProofs ScanProofs WorkProofs Assemble MatProofs MatSpec ConvProofs SortProofs.
From Verif Require Import Base Spec.

Section Conv.
Context {V : Type} (dflt : V).
Lemma csrOfCsc_correct (B : csc V) : wf_csc B ->
  exists A, csrOfCsc dflt B = Ok A /\ wf A /\ same_matrix A B /\ nnz A = c_nnz B /\
    triples A ≡ₚ triples_csc B /\
    forall i, i < rows A -> row_entries A i = csc_row B i /\ StronglySorted le (row_cols A i) /\
      (distinct_cols B -> StronglySorted lt (row_cols A i)).
Proof.
  intros Hw. exists (assemble (csc_row B) (c_rows B) (c_cols B)). split; [apply csrOfCsc_ok, Hw|].
  split; [apply assemble_wf; intros i c v _; apply csc_row_range|].
  split; [|split; [|split; [apply csc_triples_perm, Hw|]]].
  - constructor; [reflexivity|reflexivity|]. intros k j b Hk Hj. simpl in Hk, Hj. rewrite assemble_row by exact Hk.
    rewrite csc_row_elem. tauto.
  - simpl. rewrite (pre_ext _ (bucket (csc_items B))) by (intros; symmetry; apply bucket_csc).
    rewrite pre_total by (apply csc_keys_lt, Hw). apply csc_items_length, Hw.
  - intros i Hi. simpl in Hi. unfold row_cols. rewrite assemble_row by exact Hi.
    split; [reflexivity|]. split; [apply csc_row_sorted|apply csc_row_strict].
Qed.

Lemma csrOfCscT_correct (B : csc V) (t : bool) : wf_csc B ->
  exists A, csrOfCscT dflt B t = Ok A /\ wf A /\ nnz A = c_nnz B /\
    (t = false -> same_matrix A B) /\
    (t = true -> rows A = c_cols B /\ cols A = c_rows B /\ forall i, row_entries A i = col_entries B i).
Proof.
  intros Hw. destruct t.
  - exists (csc_tr B). split; [apply csrOfCscT_ok, Hw|]. split; [exact Hw|]. split; [reflexivity|]. split; [discriminate|].
    intros _. split; [reflexivity|]. split; [reflexivity|]. reflexivity.
  - destruct (csrOfCsc_correct B Hw) as (A & HA & Hwf & Hs & Hn & _). exists A. split; [exact HA|].
    split; [exact Hwf|]. split; [exact Hn|]. split; [auto|discriminate].
Qed.
End Conv.

Section Sort.
Context {V : Type} (ltV : V -> V -> Prop) (stdsort : list (nat * V) -> list (nat * V)).
Hypothesis Hsort : sort_contract ltV stdsort.
Lemma sort_perm l : stdsort l ≡ₚ l.
Proof. apply (Hsort l). Qed.
Lemma sort_len l : length (stdsort l) = length l.
Proof. rewrite (sort_perm l). reflexivity. Qed.
Lemma ss_lookup {A} (R : A -> A -> Prop) (l : list A) :
  (forall i j x y, i < j -> l !! i = Some x -> l !! j = Some y -> R x y) -> StronglySorted R l.
Proof.
  induction l as [|x l IH]; intros H; constructor.
  - apply IH. intros i j a b Hij Hi Hj. apply (H (S i) (S j)); [lia|exact Hi|exact Hj].
  - apply Forall_lookup. intros j y Hj. apply (H 0 (S j)); [lia|reflexivity|exact Hj].
Qed.
Lemma sort_le l : StronglySorted le (fst <$> stdsort l).
Proof.
  apply ss_lookup. intros i j x y Hij Hi Hj. rewrite list_lookup_fmap in Hi, Hj.
  destruct (stdsort l !! i) as [a|] eqn:Ea; [|discriminate]. destruct (stdsort l !! j) as [b|] eqn:Eb; [|discriminate].
  injection Hi as <-. injection Hj as <-. destruct (Nat.le_gt_cases (fst a) (fst b)) as [|Hlt]; [assumption|].
  exfalso. apply (proj2 (Hsort l) i j a b Hij Ea Eb). left. exact Hlt.
Qed.
Lemma ss_le_lt l : StronglySorted le l -> NoDup l -> StronglySorted lt l.
Proof.
  induction 1 as [|x l Hs IH Hf]; intros Hnd; [constructor|]. apply NoDup_cons in Hnd as [Hx Hnd]. constructor; [auto|].
  rewrite Forall_forall in Hf |- *. intros y Hy. pose proof (Hf y Hy). assert (x <> y) by congruence. lia.
Qed.

Lemma arrays_inj ids (vals : list V) ids' vals' : arrays ids vals = arrays ids' vals' -> ids = ids' /\ vals = vals'.
Proof.
  intros H. split; apply list_eq; intros p.
  - assert (E : arrays ids vals !! (aIds, p) = arrays ids' vals' !! (aIds, p)) by (rewrite H; reflexivity).
    rewrite !arrays_lookup in E. simpl in E. destruct (ids !! p), (ids' !! p); simpl in E; congruence.
  - assert (E : arrays ids vals !! (aVals, p) = arrays ids' vals' !! (aVals, p)) by (rewrite H; reflexivity).
    rewrite !arrays_lookup in E. simpl in E. destruct (vals !! p), (vals' !! p); simpl in E; congruence.
Qed.

Lemma parfor_ends_unique {L Val} `{Countable L} (body : nat -> prog L Val unit) n m m1 m2 :
  parfor_ends body n m m1 -> parfor_ends body n m m2 -> m1 = m2.
Proof. intros H1 H2. destruct (always_unique _ _ _ _ _ (H1 _ (sched_one n)) (H2 _ (sched_one n))) as [E _]. exact E. Qed.

Lemma sortIds_correct (X : csr V) : wf X ->
  exists X', sortIds_ends stdsort X X' /\
    (forall X'', sortIds_ends stdsort X X'' -> X'' = X') /\
    parfor_race_free (sortRow stdsort (rowptr X)) (rows X) (arrays (colids X) (values X)) /\
    wf X' /\ rowptr X' = rowptr X /\ rows X' = rows X /\ cols X' = cols X /\
    forall i, i < rows X -> row_entries X' i ≡ₚ row_entries X i /\ StronglySorted le (row_cols X' i) /\
      (forall p q x y, p < q -> row_entries X' i !! p = Some x -> row_entries X' i !! q = Some y -> ~ pair_lt ltV y x) /\
      (NoDup (row_cols X i) -> StronglySorted lt (row_cols X' i)).
Proof.
  intros Hw. set (g := fun i => stdsort (row_entries X i)).
  exists (assemble g (rows X) (cols X)).
  pose proof (wf_assemble X Hw) as HX.
  assert (Hrp : rowptr X = pre (row_entries X) <$> seq 0 (rows X + 1)) by (rewrite HX at 1; reflexivity).
  assert (Hci : colids X = fst <$> rowsOf (row_entries X) 0 (rows X)) by (rewrite HX at 1; reflexivity).
  assert (Hva : values X = snd <$> rowsOf (row_entries X) 0 (rows X)) by (rewrite HX at 1; reflexivity).
  assert (Hnn : nnz X = pre (row_entries X) (rows X)) by (rewrite HX at 1; reflexivity).
  assert (Hpg : forall i, pre g i = pre (row_entries X) i).
  { induction i as [|i IH]; [reflexivity|]. rewrite !pre_S, IH. unfold g. rewrite sort_len. reflexivity. }
  destruct (parfor_sort stdsort sort_len (row_entries X) (rows X)) as [He Hr].
  rewrite <- Hrp, <- Hci, <- Hva in He, Hr. fold g in He.
  assert (Hends : sortIds_ends stdsort X (assemble g (rows X) (cols X))).
  { split; [exact He|]. simpl. rewrite Hnn, Hrp, (Hpg (rows X)). repeat split. apply list_fmap_ext. intros; apply Hpg. }
  split; [exact Hends|]. split; [|split; [exact Hr|]].
  - intros X'' (He'' & H1 & H2 & H3 & H4). pose proof (parfor_ends_unique _ _ _ _ _ He'' He) as E. apply arrays_inj in E as [E1 E2].
    destruct Hends as (_ & H1' & H2' & H3' & H4'). destruct X''; simpl in *. subst.
    unfold assemble. f_equal; congruence.
  - split.
    { apply assemble_wf. intros i c v Hi Hin. unfold g in Hin. rewrite sort_perm in Hin. eapply row_entries_range; eauto. }
    split; [apply Hends|]. split; [reflexivity|]. split; [reflexivity|].
    intros i Hi. unfold row_cols. rewrite assemble_row by exact Hi. unfold g. split; [apply sort_perm|]. split; [apply sort_le|].
    split; [apply Hsort|]. intros Hnd. apply ss_le_lt; [apply sort_le|]. rewrite (sort_perm (row_entries X i)). exact Hnd.
Qed.

(** ** Sorted *)
Lemma my_is_sorted_ok (l : list nat) b e : b <= e <= length l ->
  exists r, my_is_sorted l b e = Ok r /\ (r = true <-> StronglySorted le (take (e - b) (drop b l))).
Proof.
  intros H. unfold my_is_sorted. destruct (Nat.eqb_spec b e) as [->|Hne].
  - exists true. split; [reflexivity|]. rewrite Nat.sub_diag. simpl. split; [constructor|reflexivity].
  - assert (Hadj : forall j, b + 1 <= j <= e -> (forall k x y, b + 1 <= k < j -> l !! k = Some x -> l !! (k - 1) = Some y -> y <= x) ->
      StronglySorted le (take (j - b) (drop b l))).
    { intros j Hj Hk. apply Sorted_StronglySorted; [intros ? ? ?; lia|].
      assert (Hs : forall n i, (forall k x y, i <= k < i + n -> (take (j - b) (drop b l)) !! S k = Some x -> (take (j - b) (drop b l)) !! k = Some y -> y <= x) ->
         forall t, t = drop i (take (j - b) (drop b l)) -> length t <= n -> Sorted le t).
      { induction n as [|n IHn]; intros i Hi t -> Hl; [apply Nat.le_0_r, nil_length_inv in Hl; rewrite Hl; constructor|].
        destruct (drop i (take (j - b) (drop b l))) as [|y t] eqn:E; [constructor|].
        assert (Hy : take (j - b) (drop b l) !! i = Some y) by (rewrite <- (Nat.add_0_r i), <- lookup_drop, E; reflexivity).
        assert (Ht : t = drop (S i) (take (j - b) (drop b l))) by (rewrite (drop_S _ y i Hy) in E; congruence).
        constructor.
        - apply (IHn (S i)); [|exact Ht|simpl in Hl; lia]. intros k x z Hkk. apply Hi. lia.
        - destruct t as [|z t']; constructor. apply (Hi i); [lia| |exact Hy].
          rewrite <- (Nat.add_0_r (S i)), <- lookup_drop, <- Ht. reflexivity. }
      apply (Hs (length (take (j - b) (drop b l))) 0); [|reflexivity|lia].
      intros k x y _ Hx Hy. apply lookup_take_Some in Hx as [Hx Hxl]. apply lookup_take_Some in Hy as [Hy _].
      rewrite lookup_drop in Hx, Hy. apply (Hk (b + S k) x y); [lia|exact Hx|]. replace (b + S k - 1) with (b + k) by lia. exact Hy. }
    destruct (for_inv (fun j ok => ok = true <-> (forall k x y, b + 1 <= k < j -> l !! k = Some x -> l !! (k - 1) = Some y -> y <= x))
      (fun j ok => if negb ok then Ok false else x <- get l j ;; y <- get l (j - 1) ;; Ok (negb (x <? y))) (b + 1) e true) as (r & -> & Hr).
    + lia.
    + split; [intros; lia|reflexivity].
    + intros j ok Hj Hok. destruct ok; simpl.
      * destruct (lookup_lt_is_Some_2 l j) as [x Hx]; [lia|]. destruct (lookup_lt_is_Some_2 l (j - 1)) as [y Hy]; [lia|].
        rewrite (get_Some _ _ _ Hx), bind_Ok, (get_Some _ _ _ Hy), bind_Ok. eexists. split; [reflexivity|].
        destruct Hok as [Hok _]. specialize (Hok eq_refl). split.
        -- intros Hxy k x' y' Hk Hx' Hy'. destruct (decide (k = j)) as [->|Hkj].
           ++ destruct (Nat.ltb_spec x y); [discriminate|]. congruence.
           ++ eapply Hok; eauto. lia.
        -- intros Hall. specialize (Hall j x y ltac:(lia) Hx Hy). destruct (Nat.ltb_spec x y); [lia|reflexivity].
      * exists false. split; [reflexivity|]. split; [discriminate|]. intros Hall. apply Hok. intros k x y Hk. apply Hall. lia.
    + exists r. split; [reflexivity|]. rewrite Hr. split; [apply Hadj; lia|].
      intros Hs k x y Hk Hx Hy.
      assert (Hg : forall (t : list nat) i j x y, StronglySorted le t -> i < j -> t !! i = Some x -> t !! j = Some y -> x <= y).
      { clear. intros t i j x y Hs. revert i j. induction Hs as [|a t Hs IH Hf]; intros i j Hij Hi Hj; [discriminate|].
        destruct i as [|i], j as [|j]; try lia.
        - simpl in Hi, Hj. injection Hi as <-. rewrite Forall_lookup in Hf. eauto.
        - apply (IH i j); [lia|exact Hi|exact Hj]. }
      apply (Hg _ (k - 1 - b) (k - b) y x Hs); [lia| |]; rewrite lookup_take by lia; rewrite lookup_drop.
      * replace (b + (k - 1 - b)) with (k - 1) by lia. exact Hy.
      * replace (b + (k - b)) with k by lia. exact Hx.
Qed.
Lemma sortedFlag_ok (X : csr V) : wf X ->
  exists r, sortedFlag (rows X) (rowptr X) (colids X) = Ok r /\
    (r = true <-> forall i, i < rows X -> StronglySorted le (row_cols X i)).
Proof.
  intros Hw. unfold sortedFlag.
  destruct (for_inv (fun j ok => ok = true <-> (forall i, i < j -> StronglySorted le (row_cols X i)))
    (fun i ok => b <- get (rowptr X) i ;; e <- get (rowptr X) (i + 1) ;; r <- my_is_sorted (colids X) b e ;; Ok (ok && r)) 0 (rows X) true) as (r & -> & Hr).
  - lia.
  - split; [intros; lia|reflexivity].
  - intros i ok Hi Hok. destruct (row_bounds_wf X i Hw ltac:(lia)) as (b & e & Hb & He & Hbe & Hen & _).
    rewrite (get_Some _ _ _ Hb), bind_Ok, (get_Some _ _ _ He), bind_Ok.
    destruct (my_is_sorted_ok (colids X) b e) as (r & -> & Hr); [rewrite (wf_colids X Hw); lia|]. rewrite bind_Ok.
    eexists. split; [reflexivity|]. rewrite andb_true_iff, Hok, Hr, <- (row_cols_eq X i b e Hw Hb He). split.
    + intros [H1 H2] j Hj. destruct (decide (j = i)) as [->|]; [exact H2|apply H1; lia].
    + intros H. split; [intros j Hj; apply H; lia|apply H; lia].
  - exists r. auto.
Qed.

(** ** Construction from triples *)
Context (dflt : V).
Definition to_items (its : list (nat * nat * V)) : list (nat * (nat * V)) :=
  (fun x => (snd (fst x), (fst (fst x), snd x))) <$> its.

Lemma bucketItems_ok its m n : Forall (fun x : nat * nat * V => fst (fst x) < m /\ snd (fst x) < n) its ->
  bucketItems dflt its (length its) n = Ok (pre (bucket (to_items its)) <$> seq 0 (n + 1), rowsOf (bucket (to_items its)) 0 n).
Proof.
  intros Hall. unfold bucketItems.
  rewrite (for_foldM its _ (fun w x => bump w (snd (fst x)))) by (first [lia|intros k [[r c] v] s _ Hk; rewrite (get_Some _ _ _ Hk); reflexivity]).
  rewrite Nat.sub_0_r, drop_0, take_ge by lia. rewrite <- (foldM_fmap bump (fun x : nat * nat * V => snd (fst x))).
  assert (Hk : (fun x : nat * nat * V => snd (fst x)) <$> its = fst <$> to_items its) by (unfold to_items; rewrite <- list_fmap_compose; reflexivity).
  assert (Hlt : Forall (fun x => fst x < n) (to_items its)).
  { unfold to_items. apply Forall_fmap. eapply Forall_impl; [exact Hall|]. intros [[r c] v] [_ H]. exact H. }
  rewrite Hk, count_fold; [|apply Forall_fmap; exact Hlt]. rewrite bind_Ok, pointers_ok, bind_Ok.
  rewrite (list_fmap_ext (psum (cnt (fst <$> to_items its))) (pre (bucket (to_items its))) (seq 0 n)) by (intros; apply psum_pre).
  rewrite (list_fmap_ext (psum (cnt (fst <$> to_items its))) (pre (bucket (to_items its))) (seq 0 (n + 1))) by (intros; apply psum_pre).
  destruct (place1_fold (to_items its) n (0, dflt) Hlt) as (work' & Hf).
  rewrite (for_foldM its _ (fun s x => place1 s (snd (fst x)) (fst (fst x), snd x))) by (first [lia|intros k [[r c] v] s _ Hk'; rewrite (get_Some _ _ _ Hk'); reflexivity]).
  rewrite Nat.sub_0_r, drop_0, take_ge by lia.
  assert (Hl : length (to_items its) = length its) by (unfold to_items; apply fmap_length). rewrite Hl in Hf.
  assert (E : forall s0, foldM (fun s x => place1 s (snd (fst x)) (fst (fst x), snd x)) its s0 = foldM (fun s x => place1 s (fst x) (snd x)) (to_items its) s0)
    by (intros s0; unfold to_items; rewrite foldM_fmap; reflexivity).
  rewrite E, Hf, bind_Ok. reflexivity.
Qed.

Lemma bucket_perm_elem its i c v : (c, v) ∈ bucket (to_items its) i <-> (c, i, v) ∈ its.
Proof.
  unfold bucket, to_items. split.
  - intros Hin. apply elem_of_list_fmap in Hin as ([k [c' v']] & Heq & Hin). injection Heq as -> ->. apply elem_of_list_filter in Hin as [Hk Hin].
    simpl in Hk. subst k. apply elem_of_list_fmap in Hin as ([[r0 c0] v0] & Heq & Hin). simpl in Heq. injection Heq as -> -> ->. exact Hin.
  - intros Hin. apply elem_of_list_fmap. exists (i, (c, v)). split; [reflexivity|]. apply elem_of_list_filter. split; [reflexivity|].
    apply elem_of_list_fmap. exists (c, i, v). auto.
Qed.

Lemma mjoin_perm {A B} (f g : A -> list B) l : (forall x, x ∈ l -> f x ≡ₚ g x) -> mjoin (f <$> l) ≡ₚ mjoin (g <$> l).
Proof.
  induction l as [|x l IH]; intros H; [reflexivity|]. rewrite !fmap_cons, !mjoin_cons. rewrite (H x) by left. rewrite IH; [reflexivity|].
  intros y Hy. apply H. right. exact Hy.
Qed.

Definition tr_of (X : csr V) : csc V := mkCsc (cols X) (rows X) (nnz X) (rowptr X) (colids X) (values X).

Lemma cscOfItems_correct its m n : Forall (fun x : nat * nat * V => fst (fst x) < m /\ snd (fst x) < n) its ->
  exists X, cscOfItems_ends dflt stdsort its (length its) m n X /\
    (forall X', cscOfItems_ends dflt stdsort its (length its) m n X' -> X' = X) /\
    parfor_race_free (sortCol stdsort (colptr X)) n
      (arrays (replicate (length its) 0) (replicate (length its) dflt) ∪
       cells aSort ((fun x => CP (fst x) (snd x)) <$> rowsOf (bucket (to_items its)) 0 n)) /\
    wf_csc X /\ c_rows X = m /\ c_cols X = n /\ triples_csc X ≡ₚ its /\
    forall j, j < n -> StronglySorted le (fst <$> col_entries X j).
Proof.
  intros Hall. set (f := bucket (to_items its)). set (g := fun i => stdsort (f i)).
  assert (Hlt : Forall (fun x => fst x < n) (to_items its)).
  { unfold to_items. apply Forall_fmap. eapply Forall_impl; [exact Hall|]. intros [[r c] v] [_ H]. exact H. }
  assert (Hpg : forall i, pre g i = pre f i).
  { induction i as [|i IH]; [reflexivity|]. rewrite !pre_S, IH. unfold g. rewrite sort_len. reflexivity. }
  assert (Htot : pre f n = length its) by (unfold f; rewrite pre_total by exact Hlt; apply fmap_length).
  pose (X := tr_of (assemble g n m)). exists X.
  assert (Hcp : colptr X = pre f <$> seq 0 (n + 1)) by (simpl; apply list_fmap_ext; intros; apply Hpg).
  assert (HX : csc_tr X = assemble g n m) by reflexivity.
  assert (Hgl : length (rowsOf g 0 n) = length its) by (rewrite rowsOf_length, !Hpg, pre_0 by lia; lia).
  assert (Hb : bucketItems dflt its (length its) n = Ok (colptr X, rowsOf f 0 n)) by (rewrite Hcp; apply (bucketItems_ok its m n Hall)).
  destruct (parfor_sortCol stdsort sort_len f n (replicate (length its) 0) (replicate (length its) dflt)) as (m' & Hend & Hrf & Hsub);
    [rewrite replicate_length; auto..|].
  assert (Hends : cscOfItems_ends dflt stdsort its (length its) m n X).
  { split; [reflexivity|]. split; [reflexivity|]. split; [simpl; rewrite Hpg; exact Htot|]. destruct (Nat.ltb_spec 0 (length its)) as [Hnz|Hnz].
    - exists (rowsOf f 0 n), m'. split; [exact Hb|]. split; [rewrite Hcp; exact Hend|]. split; [exact Hsub|]. simpl. rewrite !fmap_length. auto.
    - assert (length its = 0) as H0 by lia. rewrite H0 in *. simpl. apply nil_length_inv in Hgl. rewrite Hgl.
      split; [|split; reflexivity]. rewrite replicate_seq. apply list_fmap_ext. intros i x Hx. apply lookup_seq in Hx as [-> Hx].
      rewrite Hpg. pose proof (pre_le f i n ltac:(lia)). simpl in *. lia. }
  split; [exact Hends|]. split; [|split; [rewrite Hcp; exact Hrf|split; [|split; [reflexivity|split; [reflexivity|split]]]]].
  - intros X' (H1 & H2 & H3 & H4). destruct Hends as (H1' & H2' & H3' & H4').
    destruct (0 <? length its).
    + destruct H4 as (arr & mm & Hb' & Hend' & Hsub' & Hl1 & Hl2). assert (Hcp' : colptr X' = colptr X) by congruence.
      assert (Harr : arr = rowsOf f 0 n) by congruence. subst arr.
      rewrite Hcp', Hcp in Hend'. pose proof (parfor_ends_unique _ _ _ _ _ Hend' Hend) as E. subst mm.
      assert (E1 : rowids X' = rowids X).
      { apply list_eq_same_length with (length its); [simpl; rewrite fmap_length; auto|auto|]. intros p x y Hp Hx Hy.
        assert (Hx' : arrays (rowids X') (c_values X') !! (aIds, p) = Some (CN x)) by (rewrite arrays_lookup; simpl; rewrite Hx; reflexivity).
        assert (Hy' : arrays (rowids X) (c_values X) !! (aIds, p) = Some (CN y)) by (rewrite arrays_lookup; simpl in *; rewrite Hy; reflexivity).
        pose proof (lookup_weaken _ _ _ _ Hx' Hsub'). pose proof (lookup_weaken _ _ _ _ Hy' Hsub). congruence. }
      assert (E2 : c_values X' = c_values X).
      { apply list_eq_same_length with (length its); [simpl; rewrite fmap_length; auto|auto|]. intros p x y Hp Hx Hy.
        assert (Hx' : arrays (rowids X') (c_values X') !! (aVals, p) = Some (CV x)) by (rewrite arrays_lookup; simpl; rewrite Hx; reflexivity).
        assert (Hy' : arrays (rowids X) (c_values X) !! (aVals, p) = Some (CV y)) by (rewrite arrays_lookup; simpl in *; rewrite Hy; reflexivity).
        pose proof (lookup_weaken _ _ _ _ Hx' Hsub'). pose proof (lookup_weaken _ _ _ _ Hy' Hsub). congruence. }
      clearbody X. destruct X, X'; simpl in *; congruence.
    + destruct H4 as (H4 & H5 & H6), H4' as (H4' & H5' & H6'). clearbody X. destruct X, X'; simpl in *; congruence.
  - unfold wf_csc. rewrite HX. apply assemble_wf. intros i c v Hi Hin. unfold g in Hin. rewrite sort_perm in Hin.
    unfold f in Hin. apply bucket_perm_elem in Hin. rewrite Forall_forall in Hall. apply (Hall _ Hin).
  - unfold triples_csc, col_entries. rewrite HX. simpl c_cols.
    transitivity (mjoin ((fun i => (fun x => (fst (snd x), fst x, snd (snd x))) <$> filter (fun x => fst x = i) (to_items its)) <$> seq 0 n)).
    + apply mjoin_perm. intros j Hj. apply elem_of_seq in Hj. rewrite assemble_row by lia. unfold g. rewrite (sort_perm (f j)).
      unfold f, bucket. rewrite <- list_fmap_compose. apply Permutation_refl'. apply list_fmap_ext.
      intros k [r [c v]] Hk. apply elem_of_list_lookup_2, elem_of_list_filter in Hk as [Hr _]. simpl in *. subst. reflexivity.
    + assert (E : mjoin ((fun i => (fun x : nat * (nat * V) => (fst (snd x), fst x, snd (snd x))) <$> filter (fun x => fst x = i) (to_items its)) <$> seq 0 n)
        = (fun x : nat * (nat * V) => (fst (snd x), fst x, snd (snd x))) <$> mjoin ((fun i => filter (fun x => fst x = i) (to_items its)) <$> seq 0 n))
        by (rewrite mjoin_fmap, <- list_fmap_compose; reflexivity).
      rewrite E. clear E.
      rewrite (buckets_perm fst (to_items its) n Hlt). unfold to_items. rewrite <- list_fmap_compose.
      apply Permutation_refl'. rewrite <- (list_fmap_id its) at 2. apply list_fmap_ext. intros k [[r c] v] _. reflexivity.
  - intros j Hj. unfold col_entries. rewrite HX, assemble_row by exact Hj. apply sort_le.
Qed.
End Sort.
