(** Proofs about the constructors from a graph. *)
From stdpp Require Import numbers.
From Verif Require Import MatModel BaseProofs ConcProofs ScanProofs WorkProofs Assemble MatProofs MatSpec ConvProofs GtModel GtSpec.
From Verif Require Import Base Spec.

Section Gt.
Context {V : Type} (add : V -> V -> V).
Notation edge3 := (nat * nat * V)%type.

(** Lexicographic orders of positions. *)
Definition plt (p q : nat * nat) : Prop := fst p < fst q \/ (fst p = fst q /\ snd p < snd q).
Definition ple (p q : nat * nat) : Prop := fst p < fst q \/ (fst p = fst q /\ snd p <= snd q).

Fixpoint compact (x : edge3) (l : list edge3) : list edge3 :=
  match l with
  | [] => [x]
  | b :: l' => if bool_decide (fst x = fst b) then compact (fst x, add (snd x) (snd b)) l' else x :: compact b l'
  end.
Definition merged (l : list edge3) : list edge3 := match l with [] => [] | x :: l' => compact x l' end.

Lemma addBack_snoc s x v : addBack add (s ++ [x]) v = Ok (s ++ [(fst x, add (snd x) v)]).
Proof.
  unfold addBack. rewrite app_length. simpl. replace (length s + 1 - 1) with (length s) by lia.
  rewrite (get_Some _ _ x) by (rewrite lookup_app_r, Nat.sub_diag by lia; reflexivity). rewrite bind_Ok. destruct x as [[r c] w].
  rewrite set_Ok by (rewrite app_length; simpl; lia). f_equal. rewrite insert_app_r_alt, Nat.sub_diag by lia. reflexivity.
Qed.

Lemma merge_loop (l : list edge3) x s a : fst a = fst x ->
  for_n (length l) 0 (fun i s => u <- get (a :: l) i ;; b <- get (a :: l) (i + 1) ;;
    if bool_decide (fst u = fst b) then addBack add s (snd b) else Ok (s ++ [b])) (s ++ [x]) = Ok (s ++ compact x l).
Proof.
  set (body := fun (L : list edge3) i s => a <- get L i ;; b <- get L (i + 1) ;; if bool_decide (fst a = fst b) then addBack add s (snd b) else Ok (s ++ [b])).
  change (fst a = fst x -> for_n (length l) 0 (body (a :: l)) (s ++ [x]) = Ok (s ++ compact x l)).
  assert (Sh : forall L y n i s, for_n n (S i) (body (y :: L)) s = for_n n i (body L) s).
  { intros L y n. induction n as [|n IH]; intros i s0; [reflexivity|]. simpl.
    assert (E : body (y :: L) (S i) s0 = body L i s0) by reflexivity. rewrite E. destruct (body L i s0); [simpl; apply IH|reflexivity]. }
  revert x s a. induction l as [|b l IH]; intros x s a Ha; [reflexivity|].
  cbn [length for_n]. unfold body at 1. change (get (a :: b :: l) 0) with (Ok a). change (get (a :: b :: l) (0 + 1)) with (Ok b). rewrite !bind_Ok, Ha.
  cbn [compact]. destruct (bool_decide_reflect (fst x = fst b)) as [E|E].
  - rewrite addBack_snoc, bind_Ok, Sh. apply IH. simpl. congruence.
  - rewrite bind_Ok, Sh, (IH b (s ++ [x]) b eq_refl), <- app_assoc. reflexivity.
Qed.

Context (ltV : V -> V -> Prop) (srt : list edge3 -> list edge3) (Hsrt : edge_sort ltV srt).

Lemma mergeGroup_ok c s : c <> [] -> mergeGroup add srt c s = Ok (s ++ merged (srt c)).
Proof.
  intros Hc. unfold mergeGroup. destruct (Hsrt c) as [P _]. destruct (srt c) as [|a l] eqn:E.
  - symmetry in P. apply Permutation_nil_r in P. congruence.
  - change (get (a :: l) 0) with (Ok a). rewrite bind_Ok. unfold for_. simpl length. rewrite !Nat.sub_0_r.
    replace (S (length l) - 1) with (length l) by lia. apply (merge_loop l a s a eq_refl).
Qed.

(** The whole of simpleG. *)
Fixpoint groups (cur : list edge3) (s : nat) (E : list edge3) : list edge3 :=
  match E with
  | [] => merged (srt cur)
  | y :: E' => if s =? fst (fst y) then groups (cur ++ [y]) s E' else merged (srt cur) ++ groups [y] (fst (fst y)) E'
  end.

Lemma edgeAt_ok (G : graph V) (E : list edge3) k x : graph_edges G E -> E !! k = Some x -> edgeAt G k = Ok x.
Proof.
  intros HG Hx. destruct x as [[s e] w]. destruct (ge_at _ _ HG _ _ _ _ Hx) as (H1 & H2 & H3). unfold edgeAt, get. rewrite H1, H2, H3. reflexivity.
Qed.

Lemma simple_loop (G : graph V) (E : list edge3) (HG : graph_edges G E) n k x simple cur : E !! k = Some x -> k + n + 1 = length E -> cur <> [] ->
  ('(simpleG, currCol) <- for_n n k (fun k '(simpleG, currCol) =>
      a <- get (g_start G) k ;;
      b <- get (g_start G) (k + 1) ;;
      '(simpleG, currCol) <- (if a =? b then Ok (simpleG, currCol)
                              else s <- mergeGroup add srt currCol simpleG ;; Ok (s, [])) ;;
      y <- edgeAt G (k + 1) ;;
      Ok (simpleG, currCol ++ [y])) (simple, cur) ;;
   mergeGroup add srt currCol simpleG) = Ok (simple ++ groups cur (fst (fst x)) (drop (k + 1) E)).
Proof.
  revert k x simple cur. induction n as [|n IH]; intros k x simple cur Hx Hk Hc.
  - simpl for_n. rewrite bind_Ok, mergeGroup_ok by exact Hc. rewrite drop_ge by lia. reflexivity.
  - destruct (lookup_lt_is_Some_2 E (k + 1)) as [y Hy]; [lia|].
    cbn [for_n]. destruct x as [[s e] w], y as [[s' e'] w'].
    destruct (ge_at _ _ HG _ _ _ _ Hx) as (H1 & _). destruct (ge_at _ _ HG _ _ _ _ Hy) as (H1' & _).
    rewrite (get_Some _ _ _ H1), bind_Ok, (get_Some _ _ _ H1'), bind_Ok.
    assert (D : drop (k + 1) E = (s', e', w') :: drop (k + 2) E) by (replace (k + 2) with (S (k + 1)) by lia; apply drop_S, Hy).
    rewrite D. cbn [groups fst]. destruct (Nat.eqb_spec s s') as [->|Hn].
    + rewrite bind_Ok, (edgeAt_ok G E (k + 1) _ HG Hy), !bind_Ok.
      replace (S k) with (k + 1) by lia. rewrite (IH (k + 1) (s', e', w') simple (cur ++ [(s', e', w')]) Hy); [|lia|destruct cur; discriminate].
      simpl. replace (k + 1 + 1) with (k + 2) by lia. reflexivity.
    + rewrite mergeGroup_ok by exact Hc. rewrite !bind_Ok, (edgeAt_ok G E (k + 1) _ HG Hy), !bind_Ok.
      replace (S k) with (k + 1) by lia. rewrite (IH (k + 1) (s', e', w') (simple ++ merged (srt cur)) ([] ++ [(s', e', w')]) Hy); [|lia|discriminate].
      simpl. replace (k + 1 + 1) with (k + 2) by lia. rewrite <- app_assoc. reflexivity.
Qed.

Definition allGroups (E : list edge3) : list edge3 := match E with [] => [] | x :: E' => groups [x] (fst (fst x)) E' end.
Lemma simpleEdges_ok (G : graph V) (E : list edge3) : graph_edges G E -> 0 < g_m G -> simpleEdges add srt G = Ok (allGroups E).
Proof.
  intros HG Hm. rewrite <- (ge_m _ _ HG) in Hm. destruct E as [|x E]; [simpl in Hm; lia|].
  unfold simpleEdges. rewrite (edgeAt_ok G (x :: E) 0 x); [|assumption|reflexivity]. rewrite bind_Ok.
  unfold for_. rewrite Nat.sub_0_r. rewrite (simple_loop G (x :: E) HG (g_m G - 1) 0 x [] [x]); [reflexivity|reflexivity| |discriminate].
  pose proof (ge_m _ _ HG) as L. rewrite <- L. simpl. lia.
Qed.

(** Properties of the merged list of a sorted group. *)
Definition wts (E : list edge3) (p : nat * nat) : list V := snd <$> filter (fun x => fst x = p) E.
Lemma wts_cons x l p : wts (x :: l) p = if decide (fst x = p) then snd x :: wts l p else wts l p.
Proof. unfold wts. rewrite filter_cons. destruct (decide (fst x = p)); reflexivity. Qed.
Lemma wts_app a b p : wts (a ++ b) p = wts a p ++ wts b p.
Proof. unfold wts. rewrite filter_app, fmap_app. reflexivity. Qed.
Lemma wts_none l p : p ∉ fst <$> l -> wts l p = [].
Proof.
  induction l as [|x l IH]; intros H; [reflexivity|]. rewrite fmap_cons, not_elem_of_cons in H. rewrite wts_cons, decide_False by (intros E; apply (proj1 H); congruence). apply IH, H.
Qed.

Lemma ple_trans p q r : ple p q -> ple q r -> ple p r.
Proof. unfold ple. lia. Qed.
Lemma plt_ple p q r : plt p q -> ple q r -> plt p r.
Proof. unfold ple, plt. lia. Qed.
Lemma ple_plt p q : ple p q -> p <> q -> plt p q.
Proof. destruct p as [a b], q as [c d]. unfold ple, plt. simpl. intros H N. destruct (decide (a = c)) as [->|]; [|lia]. destruct (decide (b = d)) as [->|]; [congruence|lia]. Qed.

Lemma compact_spec l x : StronglySorted ple (fst x :: (fst <$> l)) ->
  StronglySorted plt (fst <$> compact x l) /\ (forall p, p ∈ fst <$> compact x l <-> p ∈ fst x :: (fst <$> l)) /\
  (forall p v, (p, v) ∈ compact x l -> exists w r, w :: r = wts (x :: l) p /\ v = fold_left add r w).
Proof.
  revert x. induction l as [|b l IH]; intros x Hs.
  - simpl. split; [repeat constructor|]. split; [reflexivity|]. intros p v Hin. apply elem_of_list_singleton in Hin. subst x.
    exists v, []. split; [|reflexivity]. rewrite wts_cons. simpl. rewrite decide_True by reflexivity. reflexivity.
  - rewrite fmap_cons in Hs. apply StronglySorted_inv in Hs as [Hs Hf]. cbn [compact]. destruct (bool_decide_reflect (fst x = fst b)) as [E|E].
    + destruct (IH (fst x, add (snd x) (snd b))) as (I1 & I2 & I3); [simpl; rewrite E; exact Hs|]. split; [exact I1|]. split.
      * intros p. rewrite I2, fmap_cons, !elem_of_cons, E. simpl fst. tauto.
      * intros p v Hin. destruct (I3 p v Hin) as (w & r & Hw & Hv). rewrite wts_cons in Hw. rewrite !wts_cons, <- E. simpl in Hw.
        destruct (decide (fst x = p)); [|exists w, r; auto]. injection Hw as -> ->. exists (snd x), (snd b :: wts l p). split; [reflexivity|exact Hv].
    + destruct (IH b Hs) as (I1 & I2 & I3). rewrite Forall_cons in Hf. destruct Hf as [Hb Hf].
      assert (Lt : forall p, p ∈ fst b :: (fst <$> l) -> plt (fst x) p).
      { intros p Hp. apply StronglySorted_inv in Hs as [_ Hs']. rewrite Forall_forall in Hs'. apply elem_of_cons in Hp as [->|Hp].
        - apply ple_plt; assumption.
        - apply (plt_ple _ (fst b)); [apply ple_plt; assumption|]. apply Hs', Hp. }
      split; [|split].
      * rewrite fmap_cons. constructor; [exact I1|]. apply Forall_forall. intros p Hp. apply Lt, I2, Hp.
      * intros p. rewrite !fmap_cons, !elem_of_cons, I2, elem_of_cons. tauto.
      * intros p v Hin. rewrite wts_cons. apply elem_of_cons in Hin as [Hin|Hin].
        -- subst x. simpl. rewrite decide_True by reflexivity. exists v, []. split; [|reflexivity]. f_equal. symmetry. apply wts_none.
           intros Hp. specialize (Lt _ Hp). unfold plt in Lt. simpl in Lt. lia.
        -- rewrite decide_False; [apply I3, Hin|]. intros Ep. assert (Hp : p ∈ fst <$> compact b l) by (apply elem_of_list_fmap; exists (p, v); auto).
           apply I2 in Hp. specialize (Lt _ Hp). rewrite Ep in Lt. unfold plt in Lt. lia.
Qed.

(** A sorted group. *)
Lemma srt_ple c : StronglySorted ple (fst <$> srt c).
Proof.
  destruct (Hsrt c) as [_ H]. assert (A : forall l : list edge3, (forall i j x y, i < j -> l !! i = Some x -> l !! j = Some y -> ~ edge_lt ltV y x) -> StronglySorted ple (fst <$> l)).
  { clear. induction l as [|x l IH]; intros H; [constructor|]. rewrite fmap_cons. constructor.
    - apply IH. intros i j u w Hij Hu Hw. exact (H (S i) (S j) u w ltac:(lia) Hu Hw).
    - apply Forall_forall. intros p Hp. apply elem_of_list_In, elem_of_list_fmap in Hp as (y & -> & Hy) || apply elem_of_list_fmap in Hp as (y & -> & Hy).
      apply elem_of_list_lookup in Hy as [j Hj]. specialize (H 0 (S j) x y ltac:(lia) eq_refl Hj). unfold edge_lt in H. unfold ple. lia. }
  apply A, H.
Qed.

Record good (out E : list edge3) : Prop := mkGood {
  g_sorted : StronglySorted plt (fst <$> out);
  g_pos : forall p, p ∈ fst <$> out <-> p ∈ fst <$> E;
  g_val : forall p v, (p, v) ∈ out -> sum_of add (wts E p) v }.

Lemma merged_good c : good (merged (srt c)) c.
Proof.
  destruct (Hsrt c) as [P _]. pose proof (srt_ple c) as Hs. assert (Pp : forall p, p ∈ fst <$> srt c <-> p ∈ fst <$> c) by (intros p; rewrite P; reflexivity).
  assert (Pw : forall p, wts (srt c) p ≡ₚ wts c p) by (intros p; unfold wts; rewrite P; reflexivity).
  destruct (srt c) as [|x l].
  - simpl. split; [constructor|exact Pp|]. intros p v H. inversion H.
  - simpl merged. rewrite fmap_cons in Hs. destruct (compact_spec l x Hs) as (I1 & I2 & I3). split; [exact I1| |].
    + intros p. rewrite I2, <- fmap_cons. apply Pp.
    + intros p v Hin. destruct (I3 p v Hin) as (w & r & Hw & Hv). exists w, r. split; [|exact Hv]. rewrite Hw. apply Pw.
Qed.

Lemma SS_app {A} (R : A -> A -> Prop) (a b : list A) : StronglySorted R a -> StronglySorted R b -> (forall x y, x ∈ a -> y ∈ b -> R x y) -> StronglySorted R (a ++ b).
Proof.
  intros Ha Hb H. induction a as [|x a IH]; [exact Hb|]. apply StronglySorted_inv in Ha as [Ha Hf]. simpl. constructor.
  - apply IH; [exact Ha|]. intros u w Hu. apply H. right. exact Hu.
  - apply Forall_app. split; [exact Hf|]. apply Forall_forall. intros y Hy. apply H; [left|]. first [exact Hy|apply elem_of_list_In; exact Hy].
Qed.

Lemma good_app o1 E1 o2 E2 : good o1 E1 -> good o2 E2 -> (forall x y, x ∈ E1 -> y ∈ E2 -> fst (fst x) < fst (fst y)) -> good (o1 ++ o2) (E1 ++ E2).
Proof.
  intros [S1 P1 V1] [S2 P2 V2] H.
  assert (Lt : forall p q, p ∈ fst <$> E1 -> q ∈ fst <$> E2 -> fst p < fst q).
  { intros p q Hp Hq. apply elem_of_list_fmap in Hp as (x & -> & Hx). apply elem_of_list_fmap in Hq as (y & -> & Hy). apply H; assumption. }
  split.
  - rewrite fmap_app. apply SS_app; [exact S1|exact S2|]. intros p q Hp Hq. left. apply Lt; [apply P1, Hp|apply P2, Hq].
  - intros p. rewrite !fmap_app, !elem_of_app, P1, P2. reflexivity.
  - intros p v Hin. rewrite wts_app. apply elem_of_app in Hin as [Hin|Hin].
    + assert (Hp : p ∈ fst <$> o1) by (apply elem_of_list_fmap; exists (p, v); auto). apply P1 in Hp.
      rewrite (wts_none E2 p), app_nil_r; [apply V1, Hin|]. intros Hq. specialize (Lt p p Hp Hq). lia.
    + assert (Hp : p ∈ fst <$> o2) by (apply elem_of_list_fmap; exists (p, v); auto). apply P2 in Hp.
      rewrite (wts_none E1 p); [apply V2, Hin|]. intros Hq. specialize (Lt p p Hq Hp). lia.
Qed.

Definition startsSorted (E : list edge3) : Prop := StronglySorted le ((fun x => fst (fst x)) <$> E).

Lemma groups_good E : forall cur s, (forall x, x ∈ cur -> fst (fst x) = s) -> startsSorted E -> (forall x, x ∈ E -> s <= fst (fst x)) ->
  good (groups cur s E) (cur ++ E).
Proof.
  induction E as [|y E IH]; intros cur s Hc Hs Hle; cbn [groups].
  - rewrite app_nil_r. apply merged_good.
  - unfold startsSorted in Hs. rewrite fmap_cons in Hs. apply StronglySorted_inv in Hs as [Hs Hf]. rewrite Forall_fmap in Hf.
    assert (Hf' : forall x, x ∈ E -> fst (fst y) <= fst (fst x)) by (intros x Hx; rewrite Forall_forall in Hf; apply Hf; first [exact Hx|apply elem_of_list_In; exact Hx]).
    destruct (Nat.eqb_spec s (fst (fst y))) as [->|Hn].
    + rewrite (cons_middle y cur E), app_assoc. apply IH; [|exact Hs|exact Hf'].
      intros x Hx. apply elem_of_app in Hx as [Hx|Hx]; [apply Hc, Hx|]. apply elem_of_list_singleton in Hx. subst x. reflexivity.
    + apply good_app; [apply merged_good| |].
      * change (y :: E) with ([y] ++ E). apply IH; [|exact Hs|exact Hf']. intros x Hx. apply elem_of_list_singleton in Hx. subst x. reflexivity.
      * intros x z Hx Hz. rewrite (Hc _ Hx). specialize (Hle y ltac:(left)). apply elem_of_cons in Hz as [->|Hz]; [lia|]. specialize (Hf' z Hz). lia.
Qed.

Lemma allGroups_good E : startsSorted E -> good (allGroups E) E.
Proof.
  intros Hs. destruct E as [|x E]; [split; [constructor|reflexivity|intros p v H; inversion H]|]. unfold startsSorted in Hs. rewrite fmap_cons in Hs.
  apply StronglySorted_inv in Hs as [Hs Hf]. rewrite Forall_fmap, Forall_forall in Hf. simpl. change (x :: E) with ([x] ++ E).
  apply groups_good; [|exact Hs|]; intros y Hy; [apply elem_of_list_singleton in Hy; subst y; reflexivity|]. apply Hf. first [exact Hy|apply elem_of_list_In; exact Hy].
Qed.

(** The arrays are filled bucket by bucket. *)
Context (dflt : V).
Definition keyed (key id : edge3 -> nat) (s : list edge3) : list (nat * (nat * V)) := (fun t => (key t, (id t, snd t))) <$> s.
Lemma bucketEdges_ok key id (s : list edge3) n : (forall t, t ∈ s -> key t < n) ->
  bucketEdges dflt key id s n = Ok (pre (bucket (keyed key id s)) <$> seq 0 (n + 1),
    fst <$> rowsOf (bucket (keyed key id s)) 0 n, snd <$> rowsOf (bucket (keyed key id s)) 0 n) /\
  pre (bucket (keyed key id s)) n = length s.
Proof.
  intros Hk. set (its := keyed key id s).
  assert (Hall : Forall (fun x => fst x < n) its).
  { apply Forall_forall. intros x Hx. apply elem_of_list_fmap in Hx as (t & -> & Ht). apply Hk, Ht. }
  assert (Hlen : length its = length s) by apply fmap_length.
  assert (Htot : pre (bucket its) n = length s) by (rewrite pre_total by exact Hall; exact Hlen).
  split; [|exact Htot]. unfold bucketEdges.
  rewrite (for_foldM s _ (fun w t => bump w (key t))) by (first [lia|intros k t w _ Ht; rewrite (get_Some _ _ _ Ht); reflexivity]).
  rewrite Nat.sub_0_r, drop_0, take_ge by lia.
  assert (E1 : forall w, foldM (fun w t => bump w (key t)) s w = foldM bump (fst <$> its) w).
  { intros w. unfold its, keyed. rewrite <- list_fmap_compose, foldM_fmap. reflexivity. }
  rewrite E1, count_fold, bind_Ok.
  2:{ apply Forall_fmap. exact Hall. }
  rewrite pointers_ok, bind_Ok.
  rewrite (list_fmap_ext (psum (cnt (fst <$> its))) (pre (bucket its)) (seq 0 n)) by (intros; apply psum_pre).
  rewrite (list_fmap_ext (psum (cnt (fst <$> its))) (pre (bucket its)) (seq 0 (n + 1))) by (intros; apply psum_pre).
  destruct (place1_fold its n (0, dflt) Hall) as (work' & Hf). rewrite Hlen in Hf.
  assert (Hz : replicate (length s) (0, dflt) = zip (replicate (length s) 0) (replicate (length s) dflt)).
  { generalize (length s). induction n0 as [|n0 IHn]; [reflexivity|]. simpl. rewrite IHn. reflexivity. }
  rewrite Hz in Hf. apply place2_zip in Hf; [|rewrite !replicate_length; reflexivity].
  rewrite (for_foldM s _ (fun z t => place2 z (key t) (id t) (snd t))) by (first [lia|intros k t w _ Ht; rewrite (get_Some _ _ _ Ht); reflexivity]).
  rewrite Nat.sub_0_r, drop_0, take_ge by lia.
  assert (E2 : forall w, foldM (fun z t => place2 z (key t) (id t) (snd t)) s w = foldM (fun s x => place2 s (fst x) (fst (snd x)) (snd (snd x))) its w).
  { intros w. unfold its, keyed. rewrite foldM_fmap. reflexivity. }
  rewrite E2, Hf, bind_Ok. reflexivity.
Qed.

Lemma keyed_elem key id (s : list edge3) i c v : (c, v) ∈ bucket (keyed key id s) i <-> exists t, t ∈ s /\ key t = i /\ id t = c /\ snd t = v.
Proof.
  unfold bucket, keyed. rewrite elem_of_list_fmap. split.
  - intros ([k [c' v']] & E & H). simpl in E. injection E as <- <-. apply elem_of_list_filter in H as [Hk H]. simpl in Hk.
    apply elem_of_list_fmap in H as (t & Et & Ht). injection Et as -> -> ->. eauto.
  - intros (t & Ht & <- & <- & <-). exists (key t, (id t, snd t)). split; [reflexivity|]. apply elem_of_list_filter. split; [reflexivity|].
    apply elem_of_list_fmap. exists t. auto.
Qed.

Lemma keyed_sorted key id (s : list edge3) i : StronglySorted plt (fst <$> s) ->
  (forall t u, key t = i -> key u = i -> plt (fst t) (fst u) -> id t < id u) ->
  StronglySorted lt (fst <$> bucket (keyed key id s) i).
Proof.
  intros Hs Hlt. induction s as [|t s IH]; [constructor|]. rewrite fmap_cons in Hs. apply StronglySorted_inv in Hs as [Hs Hf]. specialize (IH Hs).
  unfold keyed. rewrite fmap_cons. change (?a :: ?b) with ([a] ++ b). fold (keyed key id s). rewrite bucket_app, bucket_one.
  destruct (decide (key t = i)) as [E|E]; [|exact IH]. rewrite fmap_app. apply SS_app; [repeat constructor|exact IH|].
  intros x y Hx Hy. apply elem_of_list_singleton in Hx. subst x. apply elem_of_list_fmap in Hy as ([c v] & -> & Hy). apply keyed_elem in Hy as (u & Hu & Ku & <- & _).
  simpl. apply Hlt; [exact E|exact Ku|]. rewrite Forall_fmap, Forall_forall in Hf. apply Hf, Hu.
Qed.

Lemma fst_eta (t : edge3) : t = (fst (fst t), snd (fst t), snd t).
Proof. destruct t as [[? ?] ?]. reflexivity. Qed.

(** The matrices. *)
Theorem csrOfGraph_ok (G : graph V) E : graph_edges G E -> startsSorted E -> 0 < g_m G ->
  csrOfGraph dflt add srt G = Ok (assemble (bucket (keyed (fun t => fst (fst t)) (fun t => snd (fst t)) (allGroups E))) (g_n G) (g_n G)).
Proof.
  intros HG Hs Hm. unfold csrOfGraph. rewrite (simpleEdges_ok G E HG Hm), bind_Ok. pose proof (allGroups_good E Hs) as [G1 G2 G3].
  destruct (bucketEdges_ok (fun t => fst (fst t)) (fun t => snd (fst t)) (allGroups E) (g_n G)) as [Hb Hl].
  - intros t Ht. assert (Hp : fst t ∈ fst <$> E) by (apply G2, elem_of_list_fmap; eauto). apply elem_of_list_fmap in Hp as ([[s e] w] & E1 & Hp).
    rewrite E1. simpl. apply (ge_range _ _ HG s e w Hp).
  - rewrite Hb, bind_Ok. unfold assemble. rewrite Hl. reflexivity.
Qed.
Theorem cscOfGraph_ok (G : graph V) E : graph_edges G E -> startsSorted E -> 0 < g_m G ->
  exists R, cscOfGraph dflt add srt G = Ok R /\
    csc_tr R = assemble (bucket (keyed (fun t => snd (fst t)) (fun t => fst (fst t)) (allGroups E))) (g_n G) (g_n G).
Proof.
  intros HG Hs Hm. unfold cscOfGraph. rewrite (simpleEdges_ok G E HG Hm), bind_Ok. pose proof (allGroups_good E Hs) as [G1 G2 G3].
  destruct (bucketEdges_ok (fun t => snd (fst t)) (fun t => fst (fst t)) (allGroups E) (g_n G)) as [Hb Hl].
  - intros t Ht. assert (Hp : fst t ∈ fst <$> E) by (apply G2, elem_of_list_fmap; eauto). apply elem_of_list_fmap in Hp as ([[s e] w] & E1 & Hp).
    rewrite E1. simpl. apply (ge_range _ _ HG s e w Hp).
  - rewrite Hb, bind_Ok. eexists. split; [reflexivity|]. unfold assemble, csc_tr. simpl. rewrite Hl. reflexivity.
Qed.
End Gt.
