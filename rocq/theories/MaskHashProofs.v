(** Proofs about mask_hash.h and mask_hash_mult.h. *)
From stdpp Require Import numbers.
From Verif Require Import MaskHashModel KernelBase BaseProofs ComplProofs ConcProofs ParProofs WorkProofs Assemble IsectProofs TwoPassProofs BinProofs LpProofs SpaProofs PropBin.
From Verif Require Import Base Spec.

Lemma mrow_app {V} (mul add : V -> V -> V) ps l k : mrow mul add ps (l ++ k) = mrow mul add ps l ++ mrow mul add ps k.
Proof. apply omap_app. Qed.

(** ** Table sizes *)
Lemma mapSize_ok W n : 16 < W -> 2 * (n + 1) <= W -> exists kk, mapSize W (n + 1) = Ok (2 ^ kk) /\ n + 1 <= 2 ^ kk.
Proof.
  intros H16 Hn. destruct (growLoop_ok W 16 (n + 1) ltac:(lia) H16 ltac:(lia) Hn (S (n + 1)) 0 ltac:(lia) ltac:(intros; lia)) as (j & E & Hj & _).
  exists (4 + j). rewrite Nat.pow_add_r. change (2 ^ 4) with 16. split; [|exact Hj]. unfold mapSize. rewrite Nat.pow_0_r, Nat.mul_1_r in E. exact E.
Qed.
Definition kkOf (W n : nat) : nat := match mapSize W (n + 1) with Ok s => Nat.log2 s | Err _ => 0 end.
Lemma kkOf_ok W n : 16 < W -> 2 * (n + 1) <= W -> mapSize W (n + 1) = Ok (2 ^ kkOf W n) /\ n < 2 ^ kkOf W n.
Proof.
  intros H16 Hn. destruct (mapSize_ok W n H16 Hn) as (kk & E & H). unfold kkOf. rewrite E. rewrite Nat.log2_pow2 by lia. split; [reflexivity|lia].
Qed.
Section MaskHash.
Context {V : Type} (dflt : V) (mul add : V -> V -> V) (w : N) (W : nat).
Notation pcols := (fmap (fun p : nat * V * V => fst (fst p))).

Section Row.
Context (A B M : csr V) (i kk : nat).
Notation sz := (2 ^ kk).
Hypothesis Hco : compatible A B M.
Hypothesis Hi : i < rows A.
Let mask := row_cols M i.
Let ps := row_prods A B i.
Hypothesis Hsz : length mask < sz.

Lemma mh_ft_lt : length (first_touch mask) < sz.
Proof. pose proof (first_touch_length mask). lia. Qed.
Lemma mh_pre_le done c rest : mask = done ++ c :: rest -> length (first_touch (done ++ [c])) <= sz.
Proof. intros E. pose proof (first_touch_length (done ++ [c])) as H. rewrite app_length in H. simpl in H. rewrite E, app_length in Hsz. simpl in Hsz. lia. Qed.

(** Keys while the mask row is being inserted. *)
Definition keysIns (done : list nat) (keys : list (option nat)) : Prop :=
  insKeys w kk done (replicate sz None) = Ok keys /\ tabOk w kk keys (first_touch done) /\ length keys = sz.
Lemma keysIns_nil : keysIns [] (replicate sz None).
Proof.
  split; [reflexivity|]. split; [|apply replicate_length]. apply tabOk_empty; [rewrite replicate_length; lia|]. intros p Hp. apply lookup_replicate_2, Hp.
Qed.
Lemma keysIns_step done c rest keys : mask = done ++ c :: rest -> keysIns done keys ->
  exists p, p < sz /\ keysIns (done ++ [c]) (<[p := Some c]> keys) /\
    (c ∈ done -> keys !! p = Some (Some c) /\ lpInsert w keys sz c = Ok (keys, p, false)) /\
    (c ∉ done -> keys !! p = Some None /\ lpInsert w keys sz c = Ok (<[p := Some c]> keys, p, true)).
Proof.
  intros Hm (E & Ht & Hl). destruct (insert_step w kk keys done c Ht (mh_pre_le _ _ _ Hm)) as (p & Hp & Ht' & Hin & Hout).
  exists p. split; [exact Hp|]. split; [|split; assumption]. split; [|split; [exact Ht'|rewrite insert_length; exact Hl]].
  unfold insKeys in *. rewrite foldM_app, E, bind_Ok. cbn [foldM]. destruct (decide (c ∈ done)) as [Hd|Hd].
  - destruct (Hin Hd) as [Ep ->]. simpl. rewrite list_insert_id by exact Ep. reflexivity.
  - destruct (Hout Hd) as [Ep ->]. reflexivity.
Qed.
Lemma keysIns_done keys : keysIns mask keys -> keys = keysOf w kk mask.
Proof. intros (E & _). unfold keysOf. rewrite E. reflexivity. Qed.

Let K := keysOf w kk mask.
Lemma K_ok : tabOk w kk K (first_touch mask) /\ length K = sz.
Proof. destruct (keysOf_ok w kk mask) as (H & _ & Hl); [pose proof mh_ft_lt; lia|]. auto. Qed.
Lemma K_find c : if decide (c ∈ mask) then exists p, p < sz /\ K !! p = Some (Some c) /\ lpFind w K sz c = Ok (Some p) else lpFind w K sz c = Ok None.
Proof.
  destruct K_ok as [Ht _]. destruct (decide (c ∈ mask)) as [Hc|Hc].
  - apply (lpFind_present w kk K (first_touch mask)); [exact Ht|apply elem_of_first_touch, Hc].
  - apply (lpFind_absent w kk K (first_touch mask)); [exact Ht|rewrite elem_of_first_touch; exact Hc|apply mh_ft_lt].
Qed.
Lemma K_inj p q k : K !! p = Some (Some k) -> K !! q = Some (Some k) -> p = q.
Proof. destruct K_ok as [Ht Hl]. intros Hp Hq. eapply (tb_inj _ _ _ _ Ht); try eassumption; rewrite <- Hl; eapply lookup_lt_Some; eassumption. Qed.
Lemma K_in p k : K !! p = Some (Some k) -> p < sz /\ k ∈ mask.
Proof.
  destruct K_ok as [Ht Hl]. intros Hp. assert (p < sz) by (rewrite <- Hl; eapply lookup_lt_Some; eassumption). split; [assumption|].
  apply elem_of_first_touch. eapply tb_in; eassumption.
Qed.

(** ** Counting *)
Definition mcleanS (s : mapS) : Prop := ms_size s = sz /\ ms_keys s = replicate sz None /\ length (ms_flag s) = sz.
Definition minvS (ts : list nat) (sn : mapS * nat) : Prop :=
  ms_size (fst sn) = sz /\ ms_keys (fst sn) = K /\ length (ms_flag (fst sn)) = sz /\
  (forall p k, K !! p = Some (Some k) -> ms_flag (fst sn) !! p = Some (bool_decide (k ∈ ts))) /\
  snd sn = length (touched_allowed mask ts).

Lemma mapS_hit_inv ts sn c : minvS ts sn -> exists sn', mapS_hit w c sn = Ok sn' /\ minvS (ts ++ [c]) sn'.
Proof.
  destruct sn as [s n]. intros (Hs & Hk & Hl & Hf & Hn). cbn [fst snd] in *. unfold mapS_hit. rewrite Hs, Hk.
  assert (Hsame : (c ∈ mask -> c ∈ ts) -> minvS (ts ++ [c]) (s, n)).
  { intros Hin. split; [exact Hs|]. split; [exact Hk|]. split; [exact Hl|]. cbn [fst snd]. split.
    - intros p k Hp. rewrite (Hf p k Hp). f_equal. apply bool_decide_ext. rewrite elem_of_app, elem_of_list_singleton. split; [tauto|].
      intros [?| ->]; [assumption|]. apply Hin. eapply K_in, Hp.
    - rewrite touched_allowed_snoc, decide_False by tauto. exact Hn. }
  pose proof (K_find c) as Hfd. destruct (decide (c ∈ mask)) as [Hc|Hc]; [|rewrite Hfd; exists (s, n); split; [reflexivity|]; apply Hsame; tauto].
  destruct Hfd as (p & Hp & Ep & ->). rewrite bind_Ok, (get_Some _ _ _ (Hf p c Ep)), bind_Ok. destruct (bool_decide_reflect (c ∈ ts)) as [Ht|Ht].
  - exists (s, n). split; [reflexivity|]. apply Hsame. auto.
  - rewrite set_Ok by lia. rewrite bind_Ok. eexists. split; [reflexivity|]. split; [reflexivity|]. split; [reflexivity|]. cbn [fst snd ms_flag]. split; [rewrite insert_length; exact Hl|]. split.
    + intros q k Hq. destruct (decide (q = p)) as [->|Hne].
      * rewrite list_lookup_insert by lia. assert (k = c) by congruence. subst k. rewrite bool_decide_true; [reflexivity|]. apply elem_of_app. right. left.
      * rewrite list_lookup_insert_ne by congruence. rewrite (Hf q k Hq). f_equal. apply bool_decide_ext. rewrite elem_of_app, elem_of_list_singleton. split; [tauto|].
        intros [?| ->]; [assumption|]. destruct Hne. eapply K_inj; eassumption.
    + rewrite touched_allowed_snoc, decide_True by tauto. rewrite app_length, Hn. simpl. lia.
Qed.

Lemma mhSym_ok s : mcleanS s -> exists s', mhSym w A B M i s = Ok (s', length (touched_allowed mask (pcols ps))) /\ ms_size s' = sz /\ length (ms_keys s') = sz /\ length (ms_flag s') = sz.
Proof.
  intros (Hs & Hk & Hl). unfold mhSym. rewrite mask_loop_foldM; [|apply (co_M A B M Hco)|rewrite (co_rows A B M Hco); exact Hi].
  destruct (foldM_inv (fun done s => ms_size s = sz /\ keysIns done (ms_keys s) /\ length (ms_flag s) = sz /\ forall p k, ms_keys s !! p = Some (Some k) -> ms_flag s !! p = Some false)
    (fun s c => mapS_insert w c s) mask s) as (s1 & E1 & Hs1 & Hk1 & Hl1 & Hf1).
  { split; [exact Hs|]. rewrite Hk. split; [apply keysIns_nil|]. split; [exact Hl|]. intros p k Hp. apply lookup_replicate in Hp as [Hp _]. discriminate. }
  { intros done c rest s1 Hm (Hs1 & Hk1 & Hl1 & Hf1). destruct (keysIns_step done c rest _ Hm Hk1) as (p & Hp & Hk2 & Hin & Hout).
    unfold mapS_insert. rewrite Hs1. destruct (decide (c ∈ done)) as [Hd|Hd].
    - destruct (Hin Hd) as [Ep ->]. rewrite bind_Ok. exists s1. split; [reflexivity|]. split; [exact Hs1|]. rewrite list_insert_id in Hk2 by exact Ep. auto.
    - destruct (Hout Hd) as [Ep ->]. rewrite bind_Ok. rewrite set_Ok by lia. rewrite bind_Ok. eexists. split; [reflexivity|]. cbn [ms_size ms_keys ms_flag].
      split; [reflexivity|]. split; [exact Hk2|]. split; [rewrite insert_length; exact Hl1|]. destruct Hk1 as (_ & _ & Hkl). intros q k Hq. destruct (decide (q = p)) as [->|Hne].
      + apply list_lookup_insert. lia.
      + rewrite list_lookup_insert_ne in Hq by congruence. rewrite list_lookup_insert_ne by congruence. eapply Hf1, Hq. }
  fold mask. rewrite E1, bind_Ok. apply keysIns_done in Hk1.
  rewrite (prod_loop_foldM A B i _ (fun s p => mapS_hit w (fst (fst p)) s)); [|apply (co_A A B M Hco)|apply (co_B A B M Hco)|apply (co_inner A B M Hco)|exact Hi|].
  2: { intros j k s' c a b _ Hc _ _. rewrite (get_Some _ _ _ Hc). reflexivity. }
  destruct (foldM_inv (fun done s => minvS (pcols done) s) (fun s p => mapS_hit w (fst (fst p)) s) ps (s1, 0)) as ([s2 n2] & E2 & H2).
  { split; [exact Hs1|]. split; [exact Hk1|]. split; [exact Hl1|]. split; [|reflexivity]. intros p k Hp. rewrite bool_decide_false by (intros H; inversion H). apply (Hf1 p k). rewrite Hk1. exact Hp. }
  { intros done [[c a] b] rest s' _ Hs'. rewrite fmap_app. simpl. apply mapS_hit_inv, Hs'. }
  fold ps. rewrite E2. destruct H2 as (Hs2 & Hk2 & Hl2 & _ & Hn2). cbn [fst snd] in *. rewrite Hn2. exists s2. split; [reflexivity|]. split; [exact Hs2|]. rewrite Hk2. split; [apply K_ok|exact Hl2].
Qed.

(** ** Filling *)
Definition mcleanN (s : mapN (V := V)) : Prop := mn_size s = sz /\ mn_keys s = replicate sz None /\ length (mn_v1 s) = sz /\ length (mn_v2 s) = sz.
Definition minvN (done : list (nat * V * V)) (s : mapN (V := V)) : Prop :=
  mn_size s = sz /\ mn_keys s = K /\ length (mn_v1 s) = sz /\ length (mn_v2 s) = sz /\
  (forall p k, K !! p = Some (Some k) -> mn_v2 s !! p = Some (bool_decide (k ∈ pcols done))) /\
  (forall p k v, K !! p = Some (Some k) -> colval mul add done k = Some v -> mn_v1 s !! p = Some v).

Lemma mapN_hit_inv done s c a b : minvN done s -> exists s', mapN_hit add w c (mul a b) s = Ok s' /\ minvN (done ++ [(c, a, b)]) s'.
Proof.
  intros (Hs & Hk & Hl1 & Hl2 & Hf & Hv). unfold mapN_hit. rewrite Hs, Hk. unfold minvN. rewrite fmap_app. cbn [fmap list_fmap fst snd].
  pose proof (K_find c) as Hfd. destruct (decide (c ∈ mask)) as [Hc|Hc].
  - destruct Hfd as (p & Hp & Ep & ->). rewrite bind_Ok, (get_Some _ _ _ (Hf p c Ep)), bind_Ok.
    assert (Hv' : forall x, (match colval mul add done c with None => mul a b | Some v => add v (mul a b) end) = x ->
      forall q k v, K !! q = Some (Some k) -> colval mul add (done ++ [(c, a, b)]) k = Some v -> <[p := x]> (mn_v1 s) !! q = Some v).
    { intros x Ex q k v Hq. rewrite colval_snoc. destruct (decide (c = k)) as [<-|Hne].
      - rewrite (K_inj q p c Hq Ep). intros [= <-]. rewrite Ex. apply list_lookup_insert. lia.
      - intros E. rewrite list_lookup_insert_ne by (intros ->; congruence). eapply Hv; eassumption. }
    destruct (bool_decide_reflect (c ∈ pcols done)) as [Ht|Ht].
    + destruct (colval mul add done c) as [x|] eqn:Ex; [|apply colval_None in Ex; contradiction].
      rewrite (get_Some _ _ _ (Hv p c x Ep Ex)), bind_Ok, set_Ok by lia. rewrite bind_Ok. eexists. split; [reflexivity|]. cbn [mn_size mn_keys mn_v1 mn_v2].
      split; [reflexivity|]. split; [reflexivity|]. split; [rewrite insert_length; exact Hl1|]. split; [exact Hl2|]. split.
      * intros q k Hq. rewrite (Hf q k Hq). f_equal. apply bool_decide_ext. rewrite elem_of_app, elem_of_list_singleton. split; [tauto|]. intros [?| ->]; assumption.
      * apply Hv'. reflexivity.
    + assert (Ex : colval mul add done c = None) by (apply colval_None; exact Ht). rewrite Ex in Hv'.
      rewrite !set_Ok by lia. rewrite !bind_Ok. eexists. split; [reflexivity|]. cbn [mn_size mn_keys mn_v1 mn_v2].
      split; [reflexivity|]. split; [reflexivity|]. split; [rewrite insert_length; exact Hl1|]. split; [rewrite insert_length; exact Hl2|]. split.
      * intros q k Hq. destruct (decide (q = p)) as [->|Hne].
        -- rewrite list_lookup_insert by lia. assert (k = c) by congruence. subst k. rewrite bool_decide_true; [reflexivity|]. apply elem_of_app. right. left.
        -- rewrite list_lookup_insert_ne by congruence. rewrite (Hf q k Hq). f_equal. apply bool_decide_ext. rewrite elem_of_app, elem_of_list_singleton. split; [tauto|].
           intros [?| ->]; [assumption|]. destruct Hne. eapply K_inj; eassumption.
      * apply Hv'. reflexivity.
  - rewrite Hfd, bind_Ok. exists s. split; [reflexivity|]. split; [exact Hs|]. split; [exact Hk|]. split; [exact Hl1|]. split; [exact Hl2|]. split.
    + intros q k Hq. rewrite (Hf q k Hq). f_equal. apply bool_decide_ext. rewrite elem_of_app, elem_of_list_singleton. split; [tauto|]. intros [?| ->]; [assumption|].
      destruct Hc. eapply K_in, Hq.
    + intros q k v Hq. rewrite colval_snoc. destruct (decide (c = k)) as [->|Hne]; [destruct Hc; eapply K_in, Hq|]. eauto.
Qed.

Lemma mapN_gather_ok s : minvN ps s -> exists s', mapN_gather s = Ok (s', mrow mul add ps (slotOrder w kk mask)) /\ mcleanN s'.
Proof.
  intros (Hs & Hk & Hl1 & Hl2 & Hf & Hv). unfold mapN_gather. rewrite Hk. destruct K_ok as [_ HlK].
  match goal with |- context [for_ 0 _ ?bd (K, [])] =>
    destruct (for_inv (fun j st => length (fst st) = sz /\ (forall p, p < j -> fst st !! p = Some None) /\ (forall p, j <= p -> fst st !! p = K !! p) /\ snd st = mrow mul add ps (omap id (take j K))) bd 0 (length K) (K, []))
      as ([keys l] & E & Hkl & Hk0 & _ & Hl) end.
  - lia.
  - split; [exact HlK|]. split; [intros; lia|]. split; [reflexivity|reflexivity].
  - intros j [keys l] Hj (Hkl & Hk0 & Hk1 & Hl). cbn [fst snd] in *. destruct (lookup_lt_is_Some_2 K j) as [x Ex]; [lia|].
    rewrite (get_Some keys j x) by (rewrite Hk1; [exact Ex|lia]). rewrite bind_Ok.
    assert (Es : (match x with None => Ok l | Some k => f <- get (mn_v2 s) j ;; if (f : bool) then v <- get (mn_v1 s) j ;; Ok (l ++ [(k, v)]) else Ok l end)
      = Ok (mrow mul add ps (omap id (take (Datatypes.S j) K)))).
    { rewrite (slots_S K j x Ex), mrow_app, <- Hl. destruct x as [k|]; [|rewrite app_nil_r; reflexivity].
      rewrite (get_Some _ _ _ (Hf j k Ex)), bind_Ok, mrow_cons. destruct (bool_decide_reflect (k ∈ pcols ps)) as [Ht|Ht].
      - destruct (colval mul add ps k) as [v|] eqn:Ev; [|apply colval_None in Ev; contradiction]. rewrite (get_Some _ _ _ (Hv j k v Ex Ev)). reflexivity.
      - rewrite (proj2 (colval_None mul add ps k) Ht). rewrite app_nil_r. reflexivity. }
    rewrite Es, bind_Ok, set_Ok by lia. rewrite bind_Ok. eexists. split; [reflexivity|]. cbn [fst snd]. split; [rewrite insert_length; exact Hkl|]. split; [|split].
    + intros p Hp. destruct (decide (p = j)) as [->|Hne]; [apply list_lookup_insert; lia|]. rewrite list_lookup_insert_ne by congruence. apply Hk0. lia.
    + intros p Hp. rewrite list_lookup_insert_ne by lia. apply Hk1. lia.
    + rewrite Nat.add_1_r. reflexivity.
  - rewrite E, bind_Ok. cbn [fst snd] in *. eexists. split; [f_equal; f_equal; rewrite Hl; unfold slotOrder, slotsOf; fold K; rewrite HlK; reflexivity|].
    split; [exact Hs|]. split; [|split; assumption]. cbn [mn_keys]. apply list_eq_same_length with sz; [apply replicate_length|exact Hkl|].
    intros p x y Hp Hx Hy. rewrite Hk0 in Hx by lia. apply lookup_replicate in Hy as [-> _]. congruence.
Qed.

Lemma mhNum_ok s : mcleanN s -> exists s', mhNum dflt mul add w A B M i s = Ok (s', masked_row mul add (row_entries A i) (row_entries B) (slotOrder w kk mask)) /\ mcleanN s'.
Proof.
  intros (Hs & Hk & Hl1 & Hl2). unfold mhNum. rewrite mask_loop_foldM; [|apply (co_M A B M Hco)|rewrite (co_rows A B M Hco); exact Hi].
  destruct (foldM_inv (fun done s => mn_size s = sz /\ keysIns done (mn_keys s) /\ length (mn_v1 s) = sz /\ length (mn_v2 s) = sz /\ forall p k, mn_keys s !! p = Some (Some k) -> mn_v2 s !! p = Some false)
    (fun s c => mapN_insert dflt w c s) mask s) as (s1 & E1 & Hs1 & Hk1 & Hl11 & Hl21 & Hf1).
  { split; [exact Hs|]. rewrite Hk. split; [apply keysIns_nil|]. split; [exact Hl1|]. split; [exact Hl2|]. intros p k Hp. apply lookup_replicate in Hp as [Hp _]. discriminate. }
  { intros done c rest s1 Hm (Hs1 & Hk1 & Hl11 & Hl21 & Hf1). destruct (keysIns_step done c rest _ Hm Hk1) as (p & Hp & Hk2 & Hin & Hout).
    unfold mapN_insert. rewrite Hs1. destruct (decide (c ∈ done)) as [Hd|Hd].
    - destruct (Hin Hd) as [Ep ->]. rewrite bind_Ok. exists s1. split; [reflexivity|]. split; [exact Hs1|]. rewrite list_insert_id in Hk2 by exact Ep. auto.
    - destruct (Hout Hd) as [Ep ->]. rewrite bind_Ok. rewrite !set_Ok by lia. rewrite !bind_Ok. eexists. split; [reflexivity|]. cbn [mn_size mn_keys mn_v1 mn_v2].
      split; [reflexivity|]. split; [exact Hk2|]. rewrite !insert_length. split; [exact Hl11|]. split; [exact Hl21|]. destruct Hk1 as (_ & _ & Hkl). intros q k Hq. destruct (decide (q = p)) as [->|Hne].
      + apply list_lookup_insert. lia.
      + rewrite list_lookup_insert_ne in Hq by congruence. rewrite list_lookup_insert_ne by congruence. eapply Hf1, Hq. }
  fold mask. rewrite E1, bind_Ok. apply keysIns_done in Hk1.
  rewrite (prod_loop_foldM A B i _ (fun s p => mapN_hit add w (fst (fst p)) (mul (snd (fst p)) (snd p)) s)); [|apply (co_A A B M Hco)|apply (co_B A B M Hco)|apply (co_inner A B M Hco)|exact Hi|].
  2: { intros j k s' c a b Ha Hc Hb _. rewrite (get_Some _ _ _ Hc), bind_Ok, (get_Some _ _ _ Ha), bind_Ok, (get_Some _ _ _ Hb). reflexivity. }
  destruct (foldM_inv (fun done s => minvN done s) (fun s p => mapN_hit add w (fst (fst p)) (mul (snd (fst p)) (snd p)) s) ps s1) as (s2 & E2 & H2).
  { split; [exact Hs1|]. split; [exact Hk1|]. split; [exact Hl11|]. split; [exact Hl21|]. split; [|intros p k v _ E; discriminate].
    intros p k Hp. rewrite bool_decide_false by (intros H; inversion H). apply (Hf1 p k). rewrite Hk1. exact Hp. }
  { intros done [[c a] b] rest s' _ Hs'. simpl. apply mapN_hit_inv, Hs'. }
  fold ps. rewrite E2, bind_Ok. destruct (mapN_gather_ok s2 H2) as (s' & E & Hc). exists s'. split; [|exact Hc]. rewrite E. unfold ps. rewrite mrow_masked. reflexivity.
Qed.

Lemma mhRow_length : length (masked_row mul add (row_entries A i) (row_entries B) (slotOrder w kk mask)) = length (touched_allowed mask (pcols ps)).
Proof.
  rewrite <- mrow_masked. fold ps. rewrite <- (fmap_length fst (mrow mul add ps _)). apply Permutation_length, NoDup_Permutation.
  - generalize (slotOrder_NoDup w kk mask Hsz). generalize (slotOrder w kk mask). induction l as [|c l IH]; intros Hl; [constructor|]. apply NoDup_cons in Hl as [Hc Hl].
    rewrite mrow_cons. destruct (colval mul add ps c); [|apply IH, Hl]. rewrite fmap_cons. apply NoDup_cons. split; [|apply IH, Hl].
    intros H. apply elem_of_list_fmap in H as ([j v'] & E & H). simpl in E. subst j. apply mrow_elem in H as [H _]. contradiction.
  - apply NoDup_filter, NoDup_first_touch.
  - intros j. rewrite elem_touched_allowed, elem_of_list_fmap. split.
    + intros ([k v] & -> & H). apply mrow_elem in H as [Hk E]. split; [apply (slotOrder_elem w kk mask Hsz), Hk|]. simpl.
      destruct (decide (k ∈ pcols ps)) as [H|H]; [exact H|]. apply (colval_None mul add) in H. congruence.
    + intros [Hm Ht]. destruct (colval mul add ps j) as [v|] eqn:E; [|apply colval_None in E; contradiction]. exists (j, v). split; [reflexivity|].
      apply mrow_elem. split; [apply (slotOrder_elem w kk mask Hsz), Hm|exact E].
Qed.
End Row.

(** ** Tables *)
Lemma mapS_new_ok n : 16 < W -> 2 * (n + 1) <= W -> exists s, mapS_new W (n + 1) = Ok s /\ mcleanS (kkOf W n) s.
Proof.
  intros H16 Hn. destruct (kkOf_ok W n H16 Hn) as [E _]. unfold mapS_new. rewrite E, bind_Ok. eexists. split; [reflexivity|]. split; [reflexivity|]. split; [reflexivity|apply replicate_length].
Qed.
Lemma mapN_new_ok n : 16 < W -> 2 * (n + 1) <= W -> exists s, mapN_new dflt W (n + 1) = Ok s /\ mcleanN (kkOf W n) s.
Proof.
  intros H16 Hn. destruct (kkOf_ok W n H16 Hn) as [E _]. unfold mapN_new. rewrite E, bind_Ok. eexists. split; [reflexivity|]. split; [reflexivity|]. split; [reflexivity|]. split; apply replicate_length.
Qed.

Definition mlen (M : csr V) (i : nat) : nat := length (row_cols M i).
Definition mhRow (A B M : csr V) (n i : nat) : list (nat * V) :=
  masked_row mul add (row_entries A i) (row_entries B) (slotOrder w (kkOf W n) (row_cols M i)).

(** ** One table per row *)
Lemma mhRowSize_ok (M : csr V) i : wf M -> i < rows M -> mhRowSize M i = Ok (mlen M i + 1).
Proof.
  intros HM Hi. destruct (row_bounds_wf M i HM Hi) as (b & e & Hb & He & _). unfold mhRowSize, mlen.
  rewrite (get_Some _ _ _ He), bind_Ok, (get_Some _ _ _ Hb), bind_Ok, row_cols_length, (row_entries_length M i b e HM Hi Hb He). reflexivity.
Qed.
Lemma wobinSym_ok (A B M : csr V) i : compatible A B M -> 16 < W -> i < rows A -> 2 * (mlen M i + 1) <= W ->
  wobinSym w W A B M i tt = Ok (tt, length (mhRow A B M (mlen M i) i)).
Proof.
  intros Hco H16 Hi Hm. unfold wobinSym. rewrite mhRowSize_ok, bind_Ok by (try apply (co_M A B M Hco); rewrite (co_rows A B M Hco); exact Hi).
  destruct (mapS_new_ok (mlen M i) H16 Hm) as (s & -> & Hs). rewrite bind_Ok.
  destruct (kkOf_ok W (mlen M i) H16 Hm) as [_ Hk]. destruct (mhSym_ok A B M i (kkOf W (mlen M i)) Hco Hi Hk s Hs) as (s' & -> & _). rewrite bind_Ok.
  unfold mhRow. rewrite (mhRow_length A B M i (kkOf W (mlen M i)) Hk). reflexivity.
Qed.
Lemma wobinNum_ok (A B M : csr V) i : compatible A B M -> 16 < W -> i < rows A -> 2 * (mlen M i + 1) <= W ->
  wobinNum dflt mul add w W A B M i tt = Ok (tt, mhRow A B M (mlen M i) i).
Proof.
  intros Hco H16 Hi Hm. unfold wobinNum. rewrite mhRowSize_ok, bind_Ok by (try apply (co_M A B M Hco); rewrite (co_rows A B M Hco); exact Hi).
  destruct (mapN_new_ok (mlen M i) H16 Hm) as (s & -> & Hs). rewrite bind_Ok.
  destruct (kkOf_ok W (mlen M i) H16 Hm) as [_ Hk]. destruct (mhNum_ok A B M i (kkOf W (mlen M i)) Hco Hi Hk s Hs) as (s' & -> & _). reflexivity.
Qed.
Theorem wobin_ok top nts asg1 asg2 (A B M : csr V) : compatible A B M -> (N.of_nat (rows A + 1) < 2 ^ 17)%N -> 16 < W -> (forall i, i < rows A -> 2 * (mlen M i + 1) <= W) ->
  schedule (rows A) asg1 -> schedule (rows A) asg2 ->
  let R i := mhRow A B M (mlen M i) i in
  mxmHashMaskWobin_ends dflt mul add w W top nts asg1 asg2 A B M (assemble R (rows A) (cols B)) /\
  (forall C, mxmHashMaskWobin_ends dflt mul add w W top nts asg1 asg2 A B M C -> C = assemble R (rows A) (cols B)) /\
  race_free (symMem (V := V) (replicate (rows A) 0), symThreads (fun _ => Ok tt) (wobinSym w W A B M) asg1) /\
  race_free (numMem (replicate (pre R (rows A)) 0) (replicate (pre R (rows A)) dflt), numThreads (fun _ => Ok tt) (wobinNum dflt mul add w W A B M) (pre R <$> seq 0 (rows A + 1)) asg2).
Proof.
  intros Hco HN H16 Hm Hs1 Hs2 R. unfold mxmHashMaskWobin_ends.
  match goal with |- context [twoPass_ends dflt top nts (rows A) (cols B) _ ?i1 ?sy asg1 ?i2 ?nu asg2 _] =>
    destruct (two_pass dflt top (rows A) (cols B) nts R i1 sy asg1 (fun _ _ => True) i2 nu asg2 (fun _ _ => True) Hs1 Hs2) with (nz0 := replicate (rows A) 0) as (P & U & F1 & F2) end.
  - intros t its _. eexists. split; [reflexivity|exact I].
  - intros t its i [] Ht Hin _. assert (Hi : i < rows A) by (eapply (asg_lt (rows A) asg1); eassumption). exists tt. split; [|exact I]. apply wobinSym_ok; auto.
  - intros t its _. eexists. split; [reflexivity|exact I].
  - intros t its i [] Ht Hin _. assert (Hi : i < rows A) by (eapply (asg_lt (rows A) asg2); eassumption). exists tt. split; [|exact I]. apply wobinNum_ok; auto.
  - apply replicate_length.
  - exact HN.
  - split; [exact P|split; [exact U|split; [exact F1|exact F2]]].
Qed.
Theorem wobin_large top nts asg1 asg2 (A B M : csr V) : compatible A B M -> (2 ^ 17 <= N.of_nat (rows A + 1))%N -> 1 <= nts <= rows A + 1 -> 16 < W ->
  (forall i, i < rows A -> 2 * (mlen M i + 1) <= W) -> schedule (rows A) asg1 -> schedule (rows A) asg2 ->
  ~ (exists C, mxmHashMaskWobin_ends dflt mul add w W top nts asg1 asg2 A B M C).
Proof.
  intros Hco HN Hn H16 Hm Hs1 Hs2.
  eapply (two_pass_large dflt top (rows A) (cols B) nts (fun i => mhRow A B M (mlen M i) i) (fun _ => Ok tt) (wobinSym w W A B M) asg1 (fun _ _ => True)
    (fun _ => Ok tt) (fun _ => wobinNum dflt mul add w W A B M) asg2 (fun _ _ => True) Hs1).
  - intros t its _. eexists. split; [reflexivity|exact I].
  - intros t its i [] Ht Hin _. assert (Hi : i < rows A) by (eapply (asg_lt (rows A) asg1); eassumption). exists tt. split; [|exact I]. apply wobinSym_ok; auto.
  - intros t its _. eexists. split; [reflexivity|exact I].
  - intros t its i [] Ht Hin _. assert (Hi : i < rows A) by (eapply (asg_lt (rows A) asg2); eassumption). exists tt. split; [|exact I]. apply wobinNum_ok; auto.
  - apply replicate_length.
  - exact HN.
  - exact Hn.
Qed.

(** ** One table per thread *)
Definition threadOf (asg : list (list nat)) (i : nat) : nat := match list_find (fun its => i ∈ its) asg with Some (t, _) => t | None => 0 end.
Lemma threadOf_ok n asg t its i : schedule n asg -> asg !! t = Some its -> i ∈ its -> threadOf asg i = t.
Proof.
  intros Hs Ht Hi. unfold threadOf. destruct (list_find (fun its => i ∈ its) asg) as [[u us]|] eqn:E.
  - apply list_find_Some in E as (Hu & Hin & _). eapply sched_uniq; eassumption.
  - apply list_find_None in E. rewrite Forall_forall in E. destruct (E its); [eapply elem_of_list_lookup_2, Ht|exact Hi].
Qed.

Section Bin.
Context (A B M : csr V) (nt : nat).
Hypothesis Hco : compatible A B M.
Hypothesis Hnt : 1 <= nt.
Hypothesis HN : (N.of_nat (rows A + 1) < 2 ^ 17)%N.
Hypothesis HW : sum_list (nprods A B <$> seq 0 (rows A)) + nt <= W.
Let cut := cutOf W (nprods A B) (rows A) nt.
Definition mxOf (t : nat) : nat := maxOver (mlen M) (cut t) (cut (t + 1)).
(** The longest mask row of the thread of row [i]. *)
Definition mxRow (asg : list (list nat)) (i : nat) : nat := mxOf (threadOf asg i).

Lemma mhMaxRow_ok t : t < nt -> mhMaxRow M (b_off (binFor W A B nt 8)) t = Ok (mxOf t).
Proof.
  intros Ht. destruct (cutOf_props W (nprods A B) (rows A) nt Hnt HN HW) as (C0 & Cn & Cr & Cm). fold cut in C0, Cn, Cr, Cm. pose proof (co_M A B M Hco) as HM.
  unfold mhMaxRow. cbn [b_off binFor]. rewrite (get_Some _ t (cut t)) by (rewrite seq_at, decide_True by lia; reflexivity).
  rewrite bind_Ok, (get_Some _ (t + 1) (cut (t + 1))) by (rewrite seq_at, decide_True by lia; reflexivity). rewrite bind_Ok.
  match goal with |- for_ ?lo ?hi ?bd 0 = _ => destruct (for_inv (fun i s => s = maxOver (mlen M) lo i) bd lo hi 0) as (s' & E & Es) end.
  - apply Cm, Ht.
  - unfold maxOver. rewrite Nat.sub_diag. reflexivity.
  - intros i s Hi ->. eexists. split; cycle 1; [reflexivity|]. pose proof (Cr (t + 1) ltac:(lia)).
    assert (Hi' : i < rows M) by (rewrite (co_rows A B M Hco); lia). destruct (row_bounds_wf M i HM Hi') as (b & e & Hb & He & _).
    rewrite (get_Some _ _ _ He), bind_Ok, (get_Some _ _ _ Hb), bind_Ok, Nat.add_1_r, maxOver_S by lia. unfold mlen at 3.
    rewrite row_cols_length, (row_entries_length M i b e HM Hi' Hb He). reflexivity.
  - rewrite E, Es. reflexivity.
Qed.
Lemma mxOf_ge t i : cut t <= i < cut (t + 1) -> mlen M i <= mxOf t.
Proof. apply maxOver_ge. Qed.
Lemma mxOf_le t n : t < nt -> (forall i, i < rows A -> mlen M i <= n) -> mxOf t <= n.
Proof.
  intros Ht H. destruct (cutOf_props W (nprods A B) (rows A) nt Hnt HN HW) as (C0 & Cn & Cr & Cm). fold cut in C0, Cn, Cr, Cm. specialize (Cr (t + 1) ltac:(lia)). specialize (Cm t Ht).
  assert (Hk : forall k, cut t + k <= rows A -> maxOver (mlen M) (cut t) (cut t + k) <= n).
  { induction k as [|k IH]; intros Hk; [rewrite Nat.add_0_r; unfold maxOver; rewrite Nat.sub_diag; simpl; lia|].
    rewrite Nat.add_succ_r, maxOver_S by lia. specialize (IH ltac:(lia)). specialize (H (cut t + k) ltac:(lia)). lia. }
  unfold mxOf. replace (cut (t + 1)) with (cut t + (cut (t + 1) - cut t)) by lia. apply Hk. lia.
Qed.
End Bin.

Theorem bin_ok top nts nt (A B M : csr V) : compatible A B M -> rows A <> 0 -> 1 <= nt -> (N.of_nat (rows A + 1) < 2 ^ 17)%N ->
  sum_list (nprods A B <$> seq 0 (rows A)) + nt <= W -> 16 < W -> (forall i, i < rows A -> 2 * Nat.min (nprods A B i) (cols B) <= W) ->
  (forall i, i < rows A -> 2 * (mlen M i + 1) <= W) ->
  exists asg, schedule (rows A) asg /\ length asg = nt /\
  let R i := mhRow A B M (mxRow A B M nt asg i) i in
  (forall i, i < rows A -> mlen M i < 2 ^ kkOf W (mxRow A B M nt asg i)) /\
  mxmHashMask_ends dflt mul add w W top nts nt A B M (assemble R (rows A) (cols B)) /\
  (forall C, mxmHashMask_ends dflt mul add w W top nts nt A B M C -> C = assemble R (rows A) (cols B)).
Proof.
  intros Hco H0 Hnt HN HW H16 Hf Hm. destruct Hco as [HA HB HM Hin Hr Hcl] eqn:Eco. clear Eco.
  destruct (set_max_bin_ok W top A B nts nt 8 HA HB Hin H0 Hnt HN HW ltac:(lia) ltac:(lia) Hf) as [Pb Ub].
  destruct (binFor_chunks W A B nt 8 Hnt HN HW) as (asg & Ec & Hs & Hlen & Hits).
  assert (Hlt : forall t its i, asg !! t = Some its -> i ∈ its -> i < rows A) by (intros t its i; apply asg_lt, Hs).
  assert (Hmx : forall t, t < nt -> 2 * (mxOf A B M nt t + 1) <= W).
  { intros t Ht. assert (mxOf A B M nt t <= W / 2 - 1).
    { apply mxOf_le; try assumption. intros i Hi. specialize (Hm i Hi). assert (mlen M i + 1 <= W / 2) by (apply Nat.div_le_lower_bound; lia). lia. }
    assert (1 <= W / 2) by (apply Nat.div_le_lower_bound; lia). pose proof (Nat.mul_div_le W 2). lia. }
  assert (Hin' : forall t its i, asg !! t = Some its -> i ∈ its -> t < nt /\ mxRow A B M nt asg i = mxOf A B M nt t /\ mlen M i <= mxOf A B M nt t).
  { intros t its i Ht Hi. destruct (Hits t its Ht) as [Htn ->]. split; [exact Htn|]. split; [unfold mxRow; rewrite (threadOf_ok _ _ _ _ _ Hs Ht Hi); reflexivity|].
    apply mxOf_ge. apply elem_of_seq in Hi. lia. }
  exists asg. split; [exact Hs|]. split; [exact Hlen|]. intros R. split.
  { intros i Hi. destruct (asg_of (rows A) asg i Hs Hi) as (t & its & Ht & Hii). destruct (Hin' t its i Ht Hii) as (Htn & -> & Hle).
    destruct (kkOf_ok W (mxOf A B M nt t) H16 (Hmx t Htn)) as [_ Hk]. lia. }
  destruct (two_pass dflt top (rows A) (cols B) nts R (fun t => mx <- mhMaxRow M (b_off (binFor W A B nt 8)) t ;; mapS_new W (mx + 1))
      (fun i s => '(s, n) <- mhSym w A B M i s ;; Ok (mapS_reset s, n)) asg (fun t => mcleanS (kkOf W (mxOf A B M nt t)))
      (fun t => mx <- mhMaxRow M (b_off (binFor W A B nt 8)) t ;; mapN_new dflt W (mx + 1))
      (fun _ => mhNum dflt mul add w A B M) asg (fun t => mcleanN (kkOf W (mxOf A B M nt t))) Hs Hs) with (nz0 := replicate (rows A) 0) as (P & U & _).
  - intros t its Ht. destruct (Hits t its Ht) as [Htn _]. rewrite (mhMaxRow_ok A B M nt Hco Hnt HN HW t Htn), bind_Ok. apply mapS_new_ok; auto.
  - intros t its i s Ht Hi Hcs. destruct (Hin' t its i Ht Hi) as (Htn & Emx & Hle). destruct (kkOf_ok W (mxOf A B M nt t) H16 (Hmx t Htn)) as [_ Hk].
    assert (Hk' : length (row_cols M i) < 2 ^ kkOf W (mxOf A B M nt t)) by (unfold mlen in Hle; lia).
    destruct (mhSym_ok A B M i _ Hco (Hlt _ _ _ Ht Hi) Hk' s Hcs) as (s' & -> & Hs1 & Hs2 & Hs3). rewrite bind_Ok. exists (mapS_reset s'). split.
    + unfold R, mhRow. rewrite Emx, (mhRow_length A B M i _ Hk'). reflexivity.
    + split; [exact Hs1|]. split; [simpl; rewrite Hs2; reflexivity|exact Hs3].
  - intros t its Ht. destruct (Hits t its Ht) as [Htn _]. rewrite (mhMaxRow_ok A B M nt Hco Hnt HN HW t Htn), bind_Ok. apply mapN_new_ok; auto.
  - intros t its i s Ht Hi Hcs. destruct (Hin' t its i Ht Hi) as (Htn & Emx & Hle). destruct (kkOf_ok W (mxOf A B M nt t) H16 (Hmx t Htn)) as [_ Hk].
    assert (Hk' : length (row_cols M i) < 2 ^ kkOf W (mxOf A B M nt t)) by (unfold mlen in Hle; lia).
    unfold R, mhRow. rewrite Emx. apply mhNum_ok; [exact Hco|eapply Hlt; eassumption|exact Hk'|exact Hcs].
  - apply replicate_length.
  - exact HN.
  - split.
    + exists (binFor W A B nt 8), asg. split; [exact Pb|]. split; [|split; [exact Ec|exact P]].
      intros t Ht. destruct (cutOf_props W (nprods A B) (rows A) nt Hnt HN HW) as (C0 & Cn & Cr & Cm). cbn [b_nz b_off binFor].
      destruct (localSize_ok W (nprods A B) (rows A) 8 (cols B) (cutOf W (nprods A B) (rows A) nt <$> seq 0 (nt + 1)) t (cutOf W (nprods A B) (rows A) nt t) (cutOf W (nprods A B) (rows A) nt (t + 1))) as (sz & E & _);
        [lia|lia|rewrite seq_at, decide_True by lia; reflexivity|rewrite seq_at, decide_True by lia; reflexivity|split; [apply Cm, Ht|apply Cr; lia]|exact Hf|intros Hz i _; apply touched_no_cols; assumption|eauto].
    + intros C (b & asg' & Qb & _ & Qc & Q). apply Ub in Qb as ->. rewrite Ec in Qc. injection Qc as <-. apply U, Q.
Qed.

Theorem bin_large top nts nt (A B M C : csr V) : compatible A B M -> (2 ^ 17 <= N.of_nat (rows A + 1))%N -> 1 <= nts <= rows A + 1 ->
  ~ mxmHashMask_ends dflt mul add w W top nts nt A B M C.
Proof.
  intros [HA HB HM Hin Hr Hcl] HN Hnt (b & asg & Qb & _). revert Qb. apply set_max_bin_large; assumption.
Qed.
End MaskHash.
