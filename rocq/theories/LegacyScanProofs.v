(** Proofs about the older prefix sum. *)
From Verif Require Import LegacyScanModel ScanModel ConcProofs BaseProofs ScanProofs DriverBase InnerDriverStatements.
From Verif Require Import Base Spec.

Section LScan.
Context {T : Type} (zero : T) (plus : T -> T -> T) (top : nat).
Hypothesis plus_assoc : forall x y z, plus x (plus y z) = plus (plus x y) z.
Hypothesis plus_comm : forall x y, plus x y = plus y x.
Hypothesis plus_zero_l : forall x, plus zero x = x.
Lemma plus_zero_r x : plus x zero = x.
Proof. rewrite plus_comm. apply plus_zero_l. Qed.
Notation psum := (psum zero plus).
Notation mem := (gmap loc (option T)).

Lemma predW_pos x : 1 <= x -> predW top x = x - 1.
Proof. intros H. unfold predW. destruct (Nat.eqb_spec x 0); lia. Qed.

Lemma seqScan_ok src N out : 1 <= N -> N - 1 <= length src -> N <= length out ->
  lseqScan zero plus top src N out = Ok (((fun i => Some (psum src i)) <$> seq 0 N) ++ drop N out).
Proof.
  intros H1 Hs Ho. unfold lseqScan. rewrite predW_pos by lia. rewrite set_Ok by lia. rewrite bind_Ok.
  destruct (for_inv (fun i d => d = ((fun i => Some (psum src i)) <$> seq 0 (i + 1)) ++ drop (i + 1) out)
    (fun i d => x <- getI d i ;; s <- get src i ;; set_ d (i + 1) (Some (plus x s))) 0 (N - 1) (<[0:=Some zero]> out)) as (r & -> & ->).
  - lia.
  - destruct out as [|x out]; [simpl in Ho; lia|]. reflexivity.
  - intros i d Hi ->. destruct (lookup_lt_is_Some_2 src i) as [s Hsi]; [lia|].
    set (l := (fun i => Some (psum src i)) <$> seq 0 (i + 1)). assert (Hl : length l = i + 1) by (unfold l; rewrite fmap_length, seq_length; reflexivity).
    rewrite (getI_Some _ _ (psum src i)).
    2:{ rewrite lookup_app_l by lia. unfold l. rewrite list_lookup_fmap, lookup_seq_lt by lia. reflexivity. }
    rewrite bind_Ok, (get_Some _ _ _ Hsi), bind_Ok. rewrite set_Ok by (rewrite app_length, drop_length, Hl; lia). eexists. split; [reflexivity|].
    rewrite insert_app_r_alt by lia. rewrite Hl, Nat.sub_diag. destruct (lookup_lt_is_Some_2 out (i + 1)) as [y Hy]; [lia|].
    rewrite (drop_S _ _ _ Hy). simpl. rewrite <- (psum_S zero plus src i s Hsi). unfold l.
    rewrite (seq_app (i + 1) 1), fmap_app, <- app_assoc. simpl. rewrite (Nat.add_1_r i). replace (S i + 1) with (S (S i)) by lia. reflexivity.
  - replace (N - 1 + 1) with N by lia. reflexivity.
Qed.

Section Fix.
Variables (src : list T) (N nt : nat).
Hypothesis Hnt : 1 <= nt <= N.
Notation st := (lStart N nt).
Notation en := (lEnd N nt).

Lemma e_pos : 1 <= N / nt.
Proof. apply Nat.div_le_lower_bound; lia. Qed.
Lemma e_le : N / nt * nt <= N.
Proof. pose proof (Nat.mul_div_le N nt). lia. Qed.
Lemma st_en t : t < nt -> st t < en t <= N.
Proof.
  intros Ht. pose proof e_pos. pose proof e_le. unfold lEnd, lStart. destruct (Nat.ltb_spec t (nt - 1)); nia.
Qed.
Lemma en_st t u : t < u -> u < nt -> en t <= st u.
Proof.
  intros Ht Hu. pose proof e_pos. unfold lEnd, lStart. destruct (Nat.ltb_spec t (nt - 1)); nia.
Qed.
Lemma en_next t : t + 1 < nt -> en t = st (S t).
Proof. intros Ht. unfold lEnd, lStart. destruct (Nat.ltb_spec t (nt - 1)); nia. Qed.
Lemma en_last t : t + 1 = nt -> en t = N.
Proof. intros Ht. unfold lEnd. destruct (Nat.ltb_spec t (nt - 1)); lia. Qed.
Lemma lcover i : i < N -> exists t, t < nt /\ st t <= i < en t.
Proof.
  intros Hi. assert (H : forall k, k < nt -> i < en k -> exists t, t < nt /\ st t <= i < en t).
  { induction k as [|k IH]; intros Hk Hik.
    - exists 0. split; [lia|]. split; [unfold lStart; lia|exact Hik].
    - destruct (Nat.le_gt_cases (st (S k)) i) as [Hle|Hgt]; [exists (S k); auto|]. apply IH; [lia|]. rewrite en_next by lia. exact Hgt. }
  apply (H (nt - 1)); [lia|]. rewrite en_last by lia. exact Hi.
Qed.
Lemma lunique t u i : t < nt -> u < nt -> st t <= i < en t -> st u <= i < en u -> t = u.
Proof.
  intros Ht Hu H1 H2. destruct (Nat.lt_total t u) as [Hlt|[Heq|Hlt]]; [|exact Heq|].
  - pose proof (en_st _ _ Hlt Hu). lia.
  - pose proof (en_st _ _ Hlt Ht). lia.
Qed.

(** Local sums. *)
Definition loc_sum (t i : nat) : T := fold_left plus (take (i - st t) (drop (st t) src)) zero.
Definition lpart (t : nat) : T := loc_sum t (en t).
Lemma loc_sum_S t i s : st t <= i -> src !! i = Some s -> loc_sum t (i + 1) = plus (loc_sum t i) s.
Proof.
  intros Hi Hs. unfold loc_sum. replace (i + 1 - st t) with (S (i - st t)) by lia.
  rewrite (take_S_r _ _ s), fold_left_app; [reflexivity|]. rewrite lookup_drop. replace (st t + (i - st t)) with i by lia. exact Hs.
Qed.
Lemma loc_offset t i : st t <= i -> plus (loc_sum t i) (psum src (st t)) = psum src i.
Proof.
  intros Hi. rewrite plus_comm. unfold loc_sum. apply (psum_range zero plus plus_assoc plus_zero_l plus_zero_r). exact Hi.
Qed.
Lemma lpart_offset t : t < nt -> fold_left plus (lpart <$> seq 0 t) zero = psum src (st t).
Proof.
  induction t as [|t IH]; intros Ht; [unfold lStart; rewrite Nat.mul_0_r; reflexivity|].
  rewrite seq_S, fmap_app, fold_left_app, IH by lia. cbn [Nat.add fold_left fmap list_fmap]. rewrite <- en_next by lia.
  unfold lpart, loc_sum. apply (psum_range zero plus plus_assoc plus_zero_l plus_zero_r). pose proof (st_en t ltac:(lia)). lia.
Qed.

Definition lev1 (t : nat) : list (@event loc (option T)) :=
  EWr (aDst, st t) (Some zero) ::
  mjoin ((fun i => [ERd (aDst, i); EWr (aDst, i + 1) (Some (loc_sum t (i + 1)))]) <$> seq (st t) (en t - 1 - st t)) ++
  [ERd (aDst, en t - 1); EWr (aPart, t) (Some (lpart t))].
Definition lev2 (t : nat) : list (@event loc (option T)) :=
  mjoin ((fun i => [ERd (aPart, i)]) <$> seq 0 t) ++
  mjoin ((fun i => [ERd (aDst, i); EWr (aDst, i) (Some (psum src i))]) <$> seq (st t) (en t - st t)).

Lemma lrdI (m : mem) l x : m !! l = Some (Some x) -> solo m (rdI l) [ERd l] x m.
Proof. intros Hl. eapply solo_rd; [exact Hl|]. constructor. Qed.

(** The part of phase 1 before the read of in[end - 1]. *)
Lemma lev1_loop (m : mem) t : t < nt -> en t - 1 <= length src -> (forall i, i < N -> is_Some (m !! (aDst, i))) ->
  exists m', solo (<[(aDst, st t) := Some zero]> m) (pfor (st t) (predW top (en t))
     (fun i _ => pbind (rdI (aDst, i)) (fun d => pbind (lift (get src i)) (fun s => Wr (aDst, i + 1) (Some (plus d s)) (Ret tt)))) tt)
     (mjoin ((fun i => [ERd (aDst, i); EWr (aDst, i + 1) (Some (loc_sum t (i + 1)))]) <$> seq (st t) (en t - 1 - st t))) tt m' /\
    m' !! (aDst, en t - 1) = Some (Some (loc_sum t (en t - 1))) /\ (forall l, is_Some (m !! l) -> is_Some (m' !! l)).
Proof.
  intros Ht Hl Hd. pose proof (st_en t Ht) as Hse. rewrite predW_pos by lia. unfold pfor.
  destruct (solo_pfor_n (fun i (_ : unit) m' => (forall l, is_Some (m !! l) -> is_Some (m' !! l)) /\ m' !! (aDst, i) = Some (Some (loc_sum t i)))
    (fun i => [ERd (aDst, i); EWr (aDst, i + 1) (Some (loc_sum t (i + 1)))])
    (fun i _ => pbind (rdI (aDst, i)) (fun d => pbind (lift (get src i)) (fun s => Wr (aDst, i + 1) (Some (plus d s)) (Ret tt))))
    (en t - 1 - st t) (st t) tt (<[(aDst, st t) := Some zero]> m)) as ([] & m' & Hs & Hk & Hv).
  - intros i _ m' Hi [Hk Hv]. destruct (lookup_lt_is_Some_2 src i) as [s Hsi]; [lia|].
    exists tt, (<[(aDst, i + 1) := Some (loc_sum t (i + 1))]> m'). split; [|split].
    + change [ERd (aDst, i); EWr (aDst, i + 1) (Some (loc_sum t (i + 1)))] with ([@ERd loc (option T) (aDst, i)] ++ [EWr (aDst, i + 1) (Some (loc_sum t (i + 1)))]).
      eapply solo_bind; [apply lrdI, Hv|]. eapply solo_lift; [apply get_Some, Hsi|]. rewrite <- (loc_sum_S t i s) by (lia || exact Hsi).
      constructor; [apply Hk, Hd; lia|constructor].
    + intros l Hl'. destruct (decide (l = (aDst, i + 1))) as [->|Hne]; [rewrite lookup_insert; eauto|]. rewrite lookup_insert_ne by congruence. auto.
    + rewrite Nat.add_1_r. apply lookup_insert.
  - split.
    + intros l Hl'. destruct (decide (l = (aDst, st t))) as [->|Hne]; [rewrite lookup_insert; eauto|]. rewrite lookup_insert_ne by congruence. auto.
    + rewrite lookup_insert. unfold loc_sum. rewrite Nat.sub_diag. reflexivity.
  - exists m'. replace (st t + (en t - 1 - st t)) with (en t - 1) in Hv by lia. auto.
Qed.

Lemma lev1_solo (m : mem) t : N <= length src -> t < nt -> (forall i, i < N -> is_Some (m !! (aDst, i))) -> is_Some (m !! (aPart, t)) ->
  exists m', solo m (lPhase1 zero plus top src N nt t) (lev1 t) tt m'.
Proof.
  intros HN Ht Hd Hp. pose proof (st_en t Ht) as Hse.
  destruct (lev1_loop m t Ht ltac:(lia) Hd) as (m1 & Hs & Hv & Hk).
  destruct (lookup_lt_is_Some_2 src (en t - 1)) as [s Hsi]; [lia|].
  exists (<[(aPart, t) := Some (lpart t)]> m1). unfold lPhase1, lev1. constructor; [apply Hd; lia|].
  eapply solo_bind; [exact Hs|]. change [ERd (aDst, en t - 1); EWr (aPart, t) (Some (lpart t))] with ([@ERd loc (option T) (aDst, en t - 1)] ++ [EWr (aPart, t) (Some (lpart t))]).
  rewrite predW_pos by lia.
  eapply solo_bind; [apply lrdI, Hv|]. eapply solo_lift; [apply get_Some, Hsi|].
  replace (plus (loc_sum t (en t - 1)) s) with (lpart t).
  - constructor; [apply Hk, Hp|constructor].
  - unfold lpart. rewrite <- (loc_sum_S t (en t - 1) s) by (lia || exact Hsi). f_equal. lia.
Qed.

Lemma lev2_solo (m : mem) t : t < nt -> (forall i, i < nt -> m !! (aPart, i) = Some (Some (lpart i))) ->
  (forall i, st t <= i < en t -> m !! (aDst, i) = Some (Some (loc_sum t i))) ->
  exists m', solo m (lPhase2 zero plus N nt t) (lev2 t) tt m'.
Proof.
  intros Ht Hp Hd. unfold lPhase2, lev2.
  assert (Hoff : solo m (pfor 0 t (fun i acc => pbind (rdI (aPart, i)) (fun p => Ret (plus acc p))) zero)
      (mjoin ((fun i => [ERd (aPart, i)]) <$> seq 0 t)) (psum src (st t)) m).
  { unfold pfor. rewrite Nat.sub_0_r.
    destruct (solo_pfor_n (fun i acc m' => m' = m /\ acc = fold_left plus (lpart <$> seq 0 i) zero) (fun i => [ERd (aPart, i)])
      (fun i acc => pbind (rdI (aPart, i)) (fun p => Ret (plus acc p))) t 0 zero m) as (s' & m' & Hs & -> & ->).
    - intros i s m' Hi [-> ->]. exists (plus (fold_left plus (lpart <$> seq 0 i) zero) (lpart i)), m. split; [|split; [reflexivity|]].
      + change [ERd (aPart, i)] with ([ERd (aPart, i)] ++ @nil (@event loc (option T))). eapply solo_bind; [apply lrdI, Hp; lia|]. constructor.
      + rewrite seq_S, fmap_app, fold_left_app. reflexivity.
    - auto.
    - rewrite <- lpart_offset by exact Ht. exact Hs. }
  destruct (solo_pfor_n (fun i (_ : unit) m' => forall j, i <= j < en t -> m' !! (aDst, j) = Some (Some (loc_sum t j)))
    (fun i => [ERd (aDst, i); EWr (aDst, i) (Some (psum src i))])
    (fun i _ => pbind (rdI (aDst, i)) (fun d => Wr (aDst, i) (Some (plus d (psum src (st t)))) (Ret tt)))
    (en t - st t) (st t) tt m) as ([] & m' & Hs & _).
  - intros i _ m' Hi Hv. exists tt, (<[(aDst, i) := Some (psum src i)]> m'). split.
    + change [ERd (aDst, i); EWr (aDst, i) (Some (psum src i))] with ([@ERd loc (option T) (aDst, i)] ++ [EWr (aDst, i) (Some (psum src i))]).
      eapply solo_bind; [apply lrdI, Hv; lia|]. rewrite loc_offset by lia. constructor; [rewrite Hv by lia; eauto|constructor].
    + intros j Hj. rewrite lookup_insert_ne by (intros [=]; lia). apply Hv. lia.
  - intros j Hj. apply Hd. lia.
  - exists m'. eapply solo_bind; [exact Hoff|]. exact Hs.
Qed.

Definition lown (t : nat) (l : loc) : Prop := (fst l = aDst /\ st t <= snd l < en t) \/ l = (aPart, t).
Lemma lown_unique t u l : t < nt -> u < nt -> lown t l -> lown u l -> t = u.
Proof.
  intros Ht Hu [[E1 H1]|E1] [[E2 H2]|E2]; subst; simpl in *; try discriminate; [|congruence].
  eapply lunique; eauto.
Qed.
Lemma lev1_writes t l v : t < nt -> EWr l v ∈ lev1 t -> lown t l /\
  ((exists i, l = (aDst, i) /\ st t <= i < en t /\ v = Some (loc_sum t i)) \/ (l = (aPart, t) /\ v = Some (lpart t))).
Proof.
  intros Ht Hin. pose proof (st_en t Ht). unfold lev1 in Hin. rewrite elem_of_cons, elem_of_app in Hin. destruct Hin as [Hin|[Hin|Hin]].
  - injection Hin as -> ->. split; [left; simpl; auto with lia|]. left. exists (st t). split; [reflexivity|]. split; [lia|].
    unfold loc_sum. rewrite Nat.sub_diag. reflexivity.
  - apply elem_of_events in Hin as (i & Hi & Hin). rewrite !elem_of_cons, elem_of_nil in Hin. destruct Hin as [Hin|[Hin|[]]]; [discriminate|].
    injection Hin as -> ->. split; [left; simpl; split; [reflexivity|lia]|]. left. exists (i + 1). split; [reflexivity|]. split; [lia|reflexivity].
  - rewrite !elem_of_cons, elem_of_nil in Hin. destruct Hin as [Hin|[Hin|[]]]; [discriminate|]. injection Hin as -> ->.
    split; [right; reflexivity|]. right. auto.
Qed.
Lemma lev1_reads t l : t < nt -> ERd l ∈ lev1 t \/ EAny l ∈ lev1 t -> lown t l.
Proof.
  intros Ht Hin. pose proof (st_en t Ht). assert (Hx : exists e, e ∈ lev1 t /\ (e = ERd l \/ e = EAny l)) by (destruct Hin; eauto).
  destruct Hx as (e & Hx & He). unfold lev1 in Hx. rewrite elem_of_cons, elem_of_app in Hx. destruct Hx as [Hx|[Hx|Hx]].
  - subst e. destruct He; discriminate.
  - apply elem_of_events in Hx as (i & Hi & Hx). rewrite !elem_of_cons, elem_of_nil in Hx. destruct Hx as [->|[->|[]]]; destruct He as [He|He]; try discriminate.
    injection He as <-. left. simpl. split; [reflexivity|lia].
  - rewrite !elem_of_cons, elem_of_nil in Hx. destruct Hx as [->|[->|[]]]; destruct He as [He|He]; try discriminate.
    injection He as <-. left. simpl. split; [reflexivity|lia].
Qed.
Definition lown2 (t : nat) (l : loc) : Prop := fst l = aDst /\ st t <= snd l < en t.
Lemma lown2_unique t u l : t < nt -> u < nt -> lown2 t l -> lown2 u l -> t = u.
Proof. intros Ht Hu [_ H1] [_ H2]. eapply lunique; eauto. Qed.
Lemma lev2_writes t l v : t < nt -> EWr l v ∈ lev2 t -> lown2 t l /\ v = Some (psum src (snd l)).
Proof.
  intros Ht Hin. unfold lev2 in Hin. rewrite elem_of_app in Hin. destruct Hin as [Hin|Hin].
  - apply elem_of_events in Hin as (i & Hi & Hin). rewrite elem_of_cons, elem_of_nil in Hin. destruct Hin as [Hin|[]]. discriminate.
  - apply elem_of_events in Hin as (i & Hi & Hin). rewrite !elem_of_cons, elem_of_nil in Hin. destruct Hin as [Hin|[Hin|[]]]; [discriminate|].
    injection Hin as -> ->. split; [split; [reflexivity|simpl; lia]|reflexivity].
Qed.
Lemma lev2_reads t u l : t < nt -> u < nt -> ERd l ∈ lev2 t \/ EAny l ∈ lev2 t -> lown2 u l -> u = t.
Proof.
  intros Ht Hu Hin Hown. assert (Hx : exists e, e ∈ lev2 t /\ (e = ERd l \/ e = EAny l)) by (destruct Hin; eauto).
  destruct Hx as (e & Hx & He). unfold lev2 in Hx. rewrite elem_of_app in Hx. destruct Hx as [Hx|Hx].
  - apply elem_of_events in Hx as (i & Hi & Hx). rewrite elem_of_cons, elem_of_nil in Hx. destruct Hx as [->|[]]. destruct He as [He|He]; [|discriminate].
    injection He as <-. destruct Hown as [E _]. discriminate.
  - apply elem_of_events in Hx as (i & Hi & Hx). rewrite !elem_of_cons, elem_of_nil in Hx. destruct Hx as [->|[->|[]]]; destruct He as [He|He]; try discriminate.
    injection He as <-. destruct Hown as [_ Hw]. simpl in Hw. eapply lunique; [exact Hu|exact Ht|exact Hw|lia].
Qed.

Section Mem.
Variable out : list (option T).
Hypothesis Hout : N <= length out.
Notation m0 := (lMem zero out nt).
Lemma lm0_dst i : m0 !! (aDst, i) = out !! i.
Proof. unfold lMem. rewrite lookup_union, !cells_lookup. simpl. destruct (out !! i); reflexivity. Qed.
Lemma lm0_part i : i < nt -> is_Some (m0 !! (aPart, i)).
Proof. intros Hi. unfold lMem. rewrite lookup_union, !cells_lookup. simpl. rewrite lookup_replicate_2 by exact Hi. eauto. Qed.
Lemma lm0_dom i : i < N -> is_Some (m0 !! (aDst, i)).
Proof. intros Hi. rewrite lm0_dst. apply lookup_lt_is_Some_2. lia. Qed.

Lemma unit_list (l : list unit) n : length l = n -> l = replicate n tt.
Proof. revert n. induction l as [|[] l IH]; intros [|n] Hl; try discriminate; [reflexivity|]. simpl. f_equal. apply IH. simpl in Hl. lia. Qed.

Lemma lregion_ok : N <= length src ->
  (exists m, region_always (lRegion zero plus top src N nt) tt m0 (replicate nt tt) tt m (replicate nt tt) /\
    scanSees out m (((fun i => Some (psum src i)) <$> seq 0 N) ++ drop N out)) /\
  region_race_free (lRegion zero plus top src N nt) tt m0 (replicate nt tt).
Proof.
  intros HN.
  assert (S1 : forall t s, t < nt -> replicate nt tt !! t = Some s -> exists mf, solo m0 (lPhase1 zero plus top src N nt t) (lev1 t) tt mf).
  { intros t s Ht _. apply lev1_solo; [exact HN|exact Ht|exact lm0_dom|apply lm0_part, Ht]. }
  destruct (owned_phase_t (E := unit) nt (replicate nt tt) (fun _ t _ => lPhase1 zero plus top src N nt t) tt m0 lev1 (fun _ => tt) lown
    (fun t l => if decide (fst l = aDst) then Some (Some (loc_sum t (snd l))) else Some (Some (lpart t)))) as (m1 & A1 & W1 & K1).
  - apply replicate_length.
  - exact S1.
  - intros t l v Ht Hin. destruct (lev1_writes t l v Ht Hin) as [Ho [(i & -> & _ & ->)|[-> ->]]]; (split; [exact Ho|reflexivity]).
  - intros t u l Ht Hu Hin Ho. eapply lown_unique; [exact Hu|exact Ht|exact Ho|]. apply lev1_reads; auto.
  - intros t u l Ht Hu. apply lown_unique; assumption.
  - assert (Hp1 : forall i, i < nt -> m1 !! (aPart, i) = Some (Some (lpart i))).
    { intros i Hi. apply (W1 i); [exact Hi|]. unfold lev1. right. apply elem_of_app. right. right. left. }
    assert (Hd1 : forall t i, t < nt -> st t <= i < en t -> m1 !! (aDst, i) = Some (Some (loc_sum t i))).
    { intros t i Ht Hi. apply (W1 t); [exact Ht|]. unfold lev1. destruct (decide (i = st t)) as [->|Hne].
      - replace (loc_sum t (st t)) with zero by (unfold loc_sum; rewrite Nat.sub_diag; reflexivity). left.
      - right. apply elem_of_app. left. apply elem_of_events. exists (i - 1). split; [lia|]. replace (i - 1 + 1) with i by lia. right. left. }
    assert (S2 : forall t s, t < nt -> replicate nt tt !! t = Some s -> exists mf, solo m1 (lPhase2 zero plus N nt t) (lev2 t) tt mf).
    { intros t s Ht _. apply lev2_solo; [exact Ht|exact Hp1|intros i Hi; apply Hd1; assumption]. }
    destruct (owned_phase (E := unit) nt (replicate nt tt) (fun _ t _ => lPhase2 zero plus N nt t) tt m1 lev2 (fun _ => tt) lown2
      (fun l => Some (Some (psum src (snd l))))) as (m2 & A2 & W2 & K2).
    + apply replicate_length.
    + exact S2.
    + intros t l v Ht Hin. destruct (lev2_writes t l v Ht Hin) as [Ho ->]. auto.
    + intros t u l Ht Hu Hin Ho. eapply lev2_reads; eauto.
    + intros t u l Ht Hu. apply lown2_unique; assumption.
    + rewrite (unit_list ((fun _ => tt) <$> seq 0 nt) nt) in A1, A2 by (rewrite fmap_length, seq_length; reflexivity). split.
      * exists m2. split; [eapply ra_par; [exact A1|]; eapply ra_par; [exact A2|]; constructor|]. split.
        -- rewrite app_length, fmap_length, seq_length, drop_length. lia.
        -- intros i Hi. destruct (decide (i < N)) as [Hlt|Hge].
           ++ rewrite lookup_app_l by (rewrite fmap_length, seq_length; lia). rewrite list_lookup_fmap, lookup_seq_lt by lia. cbn [Nat.add fmap option_fmap option_map].
              destruct (lcover i Hlt) as (t & Ht & Hti). apply (W2 t); [exact Ht|]. unfold lev2. apply elem_of_app. right. apply elem_of_events. exists i. split; [lia|]. right. left.
           ++ rewrite lookup_app_r by (rewrite fmap_length, seq_length; lia). rewrite fmap_length, seq_length, lookup_drop. replace (N + (i - N)) with i by lia.
              rewrite K2, K1.
              ** apply lm0_dst.
              ** intros t v Ht Hin. destruct (lev1_writes t _ v Ht Hin) as [[[_ Ho]|Ho] _]; [|discriminate]. simpl in Ho. pose proof (st_en t Ht). lia.
              ** intros t v Ht Hin. destruct (lev2_writes t _ v Ht Hin) as [[_ Ho] _]. simpl in Ho. pose proof (st_en t Ht). lia.
      * constructor.
        -- eapply (owned_race_free (E := unit) nt (replicate nt tt) (fun _ t _ => lPhase1 zero plus top src N nt t) tt m0 lev1 (fun _ => tt) lown).
           ++ apply replicate_length.
           ++ exact S1.
           ++ intros t l v Ht Hin. apply (lev1_writes t l v Ht Hin).
           ++ intros t u l Ht Hu Hin Ho. eapply lown_unique; [exact Hu|exact Ht|exact Ho|]. apply lev1_reads; auto.
           ++ intros t u l Ht Hu Hin Ho. eapply lown_unique; [exact Hu|exact Ht|exact Ho|]. apply lev1_reads; auto.
           ++ intros t u l Ht Hu. apply lown_unique; assumption.
        -- intros m1' ss1 Ho. apply (proj1 A1) in Ho. injection Ho as -> ->. constructor; [|constructor].
           eapply (owned_race_free (E := unit) nt (replicate nt tt) (fun _ t _ => lPhase2 zero plus N nt t) tt m1 lev2 (fun _ => tt) lown2).
           ++ apply replicate_length.
           ++ exact S2.
           ++ intros t l v Ht Hin. apply (lev2_writes t l v Ht Hin).
           ++ intros t u l Ht Hu Hin Ho. eapply lev2_reads; eauto.
           ++ intros t u l Ht Hu Hin Ho. eapply lev2_reads; eauto.
           ++ intros t u l Ht Hu. apply lown2_unique; assumption.
Qed.

(** With an input of N - 1 cells the last thread reads past its end. *)
Lemma lregion_fails : length src = N - 1 -> region_outcome (lRegion zero plus top src N nt) tt m0 (replicate nt tt) (Err OutOfBounds).
Proof.
  intros HN. apply ro_par_fault. pose proof (st_en (nt - 1) ltac:(lia)) as Hse. rewrite en_last in Hse by lia.
  destruct (lev1_loop m0 (nt - 1) ltac:(lia)) as (m1 & Hs & Hv & Hk); [rewrite en_last by lia; lia|exact lm0_dom|].
  eapply (fails_outcome m0 (lPhase1 zero plus top src N nt (nt - 1))) with (t := nt - 1).
  - unfold lPhase1. apply fails_wr; [apply lm0_dom; lia|]. eapply solo_fails; [exact Hs|].
    eapply solo_fails; [apply lrdI; rewrite predW_pos by (rewrite en_last by lia; lia); exact Hv|].
    rewrite predW_pos by (rewrite en_last by lia; lia). rewrite en_last by lia. unfold get. rewrite lookup_ge_None_2 by lia. apply fails_now.
  - rewrite list_lookup_imap, lookup_replicate_2 by lia. reflexivity.
Qed.
End Mem.
End Fix.
End LScan.
