(** Proofs about scan.h *)
From Verif Require Import ScanModel ConcProofs BaseProofs.

(** Cells of an array in memory. *)
Lemma cells_lookup {X} a (l : list X) b i : cells a l !! (b, i) = if decide (b = a) then l !! i else None.
Proof.
  unfold cells. destruct (decide (b = a)) as [->|Hne].
  - destruct (l !! i) as [x|] eqn:Hx.
    + apply elem_of_list_to_map_1.
      * rewrite fmap_imap. apply NoDup_alt. intros j k y Hj Hk.
        rewrite list_lookup_imap in Hj, Hk. destruct (l !! j), (l !! k); simplify_eq/=. reflexivity.
      * apply (elem_of_lookup_imap_2 (fun i x => ((a, i), x)) l x i Hx).
    + apply not_elem_of_list_to_map_1. rewrite fmap_imap. intros Hin.
      apply elem_of_lookup_imap_1 in Hin as (j & y & Heq & Hy). simplify_eq/=.
  - apply not_elem_of_list_to_map_1. rewrite fmap_imap. intros Hin.
    apply elem_of_lookup_imap_1 in Hin as (j & y & Heq & Hy). simplify_eq/=.
Qed.

(** Reads that come after an own write. *)
Section Own.
Context {Val : Type}.
Notation event := (@event loc Val).

Fixpoint own_first (P : loc -> Prop) (ws : list loc) (evs : list event) : Prop :=
  match evs with
  | [] => True
  | ERd l :: r => (P l -> l ∈ ws) /\ own_first P ws r
  | EAny l :: r => own_first P ws r
  | EWr l v :: r => own_first P (l :: ws) r
  end.

Lemma own_first_spec P evs ws : own_first P ws evs -> forall pre l post, evs = pre ++ ERd l :: post -> P l ->
  l ∈ ws \/ exists w, EWr l w ∈ pre.
Proof.
  revert ws. induction evs as [|e evs IH]; intros ws Ho pre l post Heq HP; [destruct pre; discriminate|].
  destruct pre as [|e' pre]; simpl in Heq; injection Heq as -> Heq.
  - simpl in Ho. left. apply Ho, HP.
  - destruct e' as [l'|l'|l' v]; simpl in Ho.
    + destruct (IH ws (proj2 Ho) pre l post Heq HP) as [?|[w Hw]]; [auto|]. right. exists w. right. exact Hw.
    + destruct (IH ws Ho pre l post Heq HP) as [?|[w Hw]]; [auto|]. right. exists w. right. exact Hw.
    + destruct (IH (l' :: ws) Ho pre l post Heq HP) as [Hin|[w Hw]].
      * apply elem_of_cons in Hin as [->|Hin]; [|auto]. right. exists v. left.
      * right. exists w. right. exact Hw.
Qed.

Lemma own_first_app P e1 e2 ws : own_first P ws e1 -> (forall ws', (forall l, l ∈ ws -> l ∈ ws') -> (forall l v, EWr l v ∈ e1 -> l ∈ ws') -> own_first P ws' e2) ->
  own_first P ws (e1 ++ e2).
Proof.
  revert ws. induction e1 as [|e e1 IH]; intros ws H1 H2; simpl.
  - apply H2; [auto|]. intros l v Hin. inversion Hin.
  - destruct e as [l'|l'|l' v]; simpl in *.
    + split; [apply H1|]. apply IH; [apply H1|]. intros ws' Hw Hv. apply H2; [exact Hw|].
      intros l v Hin. apply elem_of_cons in Hin as [?|?]; [discriminate|eauto].
    + apply IH; [apply H1|]. intros ws' Hw Hv. apply H2; [exact Hw|].
      intros l v Hin. apply elem_of_cons in Hin as [?|?]; [discriminate|eauto].
    + apply IH; [apply H1|]. intros ws' Hw Hv. apply H2.
      * intros l Hl. apply Hw. right. exact Hl.
      * intros l v' Hin. apply elem_of_cons in Hin as [?|?]; [simplify_eq; apply Hw; left|eauto].
Qed.
End Own.

Section Scan.
Context {T : Type} (zero : T) (plus : T -> T -> T).
Hypothesis plus_assoc : forall x y z, plus x (plus y z) = plus (plus x y) z.
Hypothesis plus_zero_l : forall x, plus zero x = x.
Hypothesis plus_zero_r : forall x, plus x zero = x.
Notation mem := (gmap loc (option T)).
Notation scanPhase1 := (scanPhase1 zero plus).
Notation excPhase2 := (excPhase2 zero plus).
Notation incPhase2 := (incPhase2 zero plus).
Notation scanOffset := (scanOffset zero plus).

Definition psum (src : list T) (i : nat) : T := fold_left plus (take i src) zero.

Lemma psum_S src i s : src !! i = Some s -> psum src (S i) = plus (psum src i) s.
Proof. intros Hs. unfold psum. rewrite (take_S_r _ _ s Hs), fold_left_app. reflexivity. Qed.

Lemma for_sum src lo n acc : lo + n <= length src ->
  for_n n lo (fun i acc => s <- get src i ;; Ok (plus acc s)) acc = Ok (fold_left plus (take n (drop lo src)) acc).
Proof.
  revert lo acc. induction n as [|n IH]; intros lo acc Hlen; [reflexivity|].
  destruct (lookup_lt_is_Some_2 src lo) as [s Hs]; [lia|].
  cbn [for_n]. rewrite (get_Some _ _ _ Hs), !bind_Ok, IH by lia.
  rewrite (drop_S _ _ _ Hs). reflexivity.
Qed.

Lemma fold_plus l acc : fold_left plus l acc = plus acc (fold_left plus l zero).
Proof.
  revert acc. induction l as [|x l IH]; intros acc; simpl; [symmetry; apply plus_zero_r|].
  rewrite IH, (IH (plus zero x)), plus_zero_l, plus_assoc. reflexivity.
Qed.

Lemma psum_range src lo hi : lo <= hi -> plus (psum src lo) (fold_left plus (take (hi - lo) (drop lo src)) zero) = psum src hi.
Proof.
  intros Hle. unfold psum. rewrite <- fold_plus, <- fold_left_app. f_equal.
  replace hi with (lo + (hi - lo)) at 2 by lia. symmetry. rewrite take_drop_commute.
  rewrite <- (take_drop lo (take (lo + (hi - lo)) src)) at 1. rewrite take_take. f_equal. f_equal. lia.
Qed.

Section Fix.
Variables (src : list T) (size nt : nat).
Hypothesis Hsize : 1 <= size <= length src.
Hypothesis Hnt : 1 <= nt.
Notation st := (scanStart size nt).
Notation en := (scanEnd size nt).

Lemma ept_le : size / nt * nt <= size.
Proof. pose proof (Nat.mul_div_le size nt). lia. Qed.

Lemma st_lt t : t < nt -> st t < size.
Proof.
  intros Ht. unfold scanStart. pose proof ept_le as He.
  destruct (size / nt) as [|e]; [lia|]. nia.
Qed.

Lemma st_en t : t < nt -> st t <= en t <= size.
Proof.
  intros Ht. unfold scanEnd. pose proof (st_lt t Ht) as Hs. pose proof ept_le as He.
  destruct (Nat.eqb_spec (t + 1) nt); unfold scanStart in *; nia.
Qed.

Lemma en_st t : t + 1 < nt -> en t = st (S t).
Proof.
  intros Ht. unfold scanEnd, scanStart. destruct (Nat.eqb_spec (t + 1) nt); [lia|]. f_equal. lia.
Qed.

Lemma scan_cover i : i < size -> exists t, t < nt /\ st t <= i < en t.
Proof.
  intros Hi. destruct (decide (size / nt = 0)) as [H0|H0].
  - exists (nt - 1). unfold scanStart, scanEnd. rewrite H0.
    destruct (Nat.eqb_spec (nt - 1 + 1) nt); lia.
  - destruct (decide (i < (nt - 1) * (size / nt))) as [Hlt|Hge].
    + pose proof (Nat.div_mod i (size / nt) H0) as Hd. pose proof (Nat.mod_upper_bound i (size / nt) H0) as Hm.
      assert (Hq : i / (size / nt) < nt - 1) by (apply Nat.div_lt_upper_bound; lia).
      exists (i / (size / nt)). split; [lia|]. unfold scanStart, scanEnd.
      destruct (Nat.eqb_spec (i / (size / nt) + 1) nt); [lia|]. nia.
    + exists (nt - 1). split; [lia|]. unfold scanStart, scanEnd.
      destruct (Nat.eqb_spec (nt - 1 + 1) nt); lia.
Qed.

Definition part (t : nat) : T := fold_left plus (take (en t - st t) (drop (st t) src)) zero.

Lemma part_offset t : t < nt -> fold_left plus (part <$> seq 0 t) zero = psum src (st t).
Proof.
  induction t as [|t IH]; intros Ht; [reflexivity|].
  rewrite seq_S, fmap_app, fold_left_app, IH by lia. simpl.
  rewrite <- en_st by lia. unfold part. apply psum_range. apply st_en. lia.
Qed.

(** Phase 1. *)
Lemma phase1_solo m t : t < nt -> is_Some (m !! (aPart, t)) ->
  exists m', solo m (scanPhase1 src size nt t) [EWr (aPart, t) (Some (part t))] tt m'.
Proof.
  intros Ht Hm. eexists. unfold ScanModel.scanPhase1.
  eapply solo_lift.
  - unfold for_. apply for_sum. pose proof (st_en t Ht). lia.
  - constructor; [exact Hm|]. constructor.
Qed.

(** Phase 2. *)
Lemma solo_rdI (m : mem) l x : m !! l = Some (Some x) -> solo m (rdI l) [ERd l] x m.
Proof. intros Hl. eapply solo_rd; [exact Hl|]. constructor. Qed.

Lemma offset_solo m t : t < nt -> (forall i, i < t -> m !! (aPart, i) = Some (Some (part i))) ->
  solo m (scanOffset t) (mjoin ((fun i => [ERd (aPart, i)]) <$> seq 0 t)) (psum src (st t)) m.
Proof.
  intros Ht Hm. unfold ScanModel.scanOffset, pfor. rewrite Nat.sub_0_r.
  destruct (solo_pfor_n (fun i acc m' => m' = m /\ acc = fold_left plus (part <$> seq 0 i) zero) (fun i => [ERd (aPart, i)])
    (fun i acc => pbind (rdI (aPart, i)) (fun p => Ret (plus acc p))) t 0 zero m) as (s' & m' & Hs & -> & ->).
  - intros i s m' Hi [-> ->]. exists (plus (fold_left plus (part <$> seq 0 i) zero) (part i)), m. split; [|split; [reflexivity|]].
    + change [ERd (aPart, i)] with ([ERd (aPart, i)] ++ @nil (@event loc (option T))). eapply solo_bind; [apply solo_rdI, Hm; lia|]. constructor.
    + rewrite seq_S, fmap_app, fold_left_app. reflexivity.
  - auto.
  - rewrite <- part_offset by exact Ht. exact Hs.
Qed.

(** Events of phase 2, the same for both scans; [f i] is the value stored at [i]. *)
Definition ev2 (f : nat -> T) (t : nat) : list (@event loc (option T)) :=
  mjoin ((fun i => [ERd (aPart, i)]) <$> seq 0 t) ++
  EWr (aDst, st t) (Some (f (st t))) ::
  mjoin ((fun i => [ERd (aDst, i - 1); EWr (aDst, i) (Some (f i))]) <$> seq (st t + 1) (en t - (st t + 1))).

Lemma loop2_solo (f : nat -> T) (g : nat -> nat) m t : t < nt -> (forall i, i < size -> is_Some (m !! (aDst, i))) ->
  m !! (aDst, st t) = Some (Some (f (st t))) ->
  (forall i, 0 < i < size -> exists s, src !! g i = Some s /\ plus (f (i - 1)) s = f i) ->
  exists m', solo m (pfor (st t + 1) (en t)
     (fun i _ => pbind (rdI (aDst, i - 1)) (fun d => pbind (lift (get src (g i))) (fun s => Wr (aDst, i) (Some (plus d s)) (Ret tt)))) tt)
     (mjoin ((fun i => [ERd (aDst, i - 1); EWr (aDst, i) (Some (f i))]) <$> seq (st t + 1) (en t - (st t + 1)))) tt m'.
Proof.
  intros Ht Hdom Hst Hf. unfold pfor. pose proof (st_en t Ht) as Hse.
  destruct (solo_pfor_n (fun i (_ : unit) m' => (forall i, i < size -> is_Some (m' !! (aDst, i))) /\ m' !! (aDst, i - 1) = Some (Some (f (i - 1))))
    (fun i => [ERd (aDst, i - 1); EWr (aDst, i) (Some (f i))])
    (fun i _ => pbind (rdI (aDst, i - 1)) (fun d => pbind (lift (get src (g i))) (fun s => Wr (aDst, i) (Some (plus d s)) (Ret tt))))
    (en t - (st t + 1)) (st t + 1) tt m) as ([] & m' & Hs & _).
  - intros i _ m' Hi [Hd Hv]. destruct (Hf i ltac:(lia)) as (s & Hs & Hplus).
    exists tt, (<[(aDst, i) := Some (f i)]> m'). split; [|split].
    + change [ERd (aDst, i - 1); EWr (aDst, i) (Some (f i))] with ([@ERd loc (option T) (aDst, i - 1)] ++ [EWr (aDst, i) (Some (f i))]).
      eapply solo_bind; [apply solo_rdI, Hv|]. eapply solo_lift; [apply get_Some, Hs|].
      rewrite Hplus. constructor; [apply Hd; lia|constructor].
    + intros j Hj. destruct (decide (j = i)) as [->|Hne]; [rewrite lookup_insert; eauto|].
      rewrite lookup_insert_ne by congruence. apply Hd, Hj.
    + replace (S i - 1) with i by lia. apply lookup_insert.
  - split; [exact Hdom|]. replace (st t + 1 - 1) with (st t) by lia. exact Hst.
  - exists m'. exact Hs.
Qed.

Definition isPart (m : mem) : Prop := forall i, i < nt -> m !! (aPart, i) = Some (Some (part i)).

Lemma exc2_solo m t : t < nt -> isPart m -> (forall i, i < size -> is_Some (m !! (aDst, i))) ->
  exists m', solo m (excPhase2 src size nt t) (ev2 (psum src) t) tt m'.
Proof.
  intros Ht Hp Hd. pose proof (st_lt t Ht) as Hst.
  destruct (loop2_solo (psum src) (fun i => i - 1) (<[(aDst, st t) := Some (psum src (st t))]> m) t Ht) as [m' Hl].
  - intros i Hi. destruct (decide (i = st t)) as [->|Hne]; [rewrite lookup_insert; eauto|].
    rewrite lookup_insert_ne by congruence. auto.
  - apply lookup_insert.
  - intros i Hi. destruct (lookup_lt_is_Some_2 src (i - 1)) as [s Hs]; [lia|]. exists s. split; [exact Hs|].
    rewrite <- (psum_S _ _ _ Hs). f_equal. lia.
  - exists m'. unfold ScanModel.excPhase2, ev2. eapply solo_bind; [apply offset_solo; [exact Ht|intros; apply Hp; lia]|].
    constructor; [apply Hd, Hst|]. exact Hl.
Qed.

Lemma inc2_solo m t : t < nt -> isPart m -> (forall i, i < size -> is_Some (m !! (aDst, i))) ->
  exists m', solo m (incPhase2 src size nt t) (ev2 (fun i => psum src (S i)) t) tt m'.
Proof.
  intros Ht Hp Hd. pose proof (st_lt t Ht) as Hst.
  destruct (lookup_lt_is_Some_2 src (st t)) as [s0 Hs0]; [lia|].
  destruct (loop2_solo (fun i => psum src (S i)) (fun i => i) (<[(aDst, st t) := Some (psum src (S (st t)))]> m) t Ht) as [m' Hl].
  - intros i Hi. destruct (decide (i = st t)) as [->|Hne]; [rewrite lookup_insert; eauto|].
    rewrite lookup_insert_ne by congruence. auto.
  - apply lookup_insert.
  - intros i Hi. destruct (lookup_lt_is_Some_2 src i) as [s Hs]; [lia|]. exists s. split; [exact Hs|].
    rewrite (psum_S _ _ _ Hs). f_equal. f_equal. lia.
  - exists m'. unfold ScanModel.incPhase2, ev2. eapply solo_bind; [apply offset_solo; [exact Ht|intros; apply Hp; lia]|].
    eapply solo_lift; [apply get_Some, Hs0|]. rewrite <- (psum_S _ _ _ Hs0).
    constructor; [apply Hd, Hst|]. exact Hl.
Qed.

Lemma ev2_writes f t l v : EWr l v ∈ ev2 f t -> exists i, l = (aDst, i) /\ v = Some (f i) /\ (i = st t \/ st t < i < en t).
Proof.
  unfold ev2. rewrite elem_of_app, elem_of_cons. intros [H|[H|H]].
  - apply elem_of_events in H as (i & _ & H). apply elem_of_list_singleton in H. discriminate.
  - simplify_eq. eauto.
  - apply elem_of_events in H as (i & Hi & H). apply elem_of_cons in H as [H|H]; [discriminate|].
    apply elem_of_list_singleton in H. simplify_eq. exists i. repeat split; auto. right. lia.
Qed.

Lemma ev2_write f t i : i = st t \/ st t < i < en t -> EWr (aDst, i) (Some (f i)) ∈ ev2 f t.
Proof.
  intros Hi. unfold ev2. rewrite elem_of_app, elem_of_cons. destruct Hi as [->|Hi]; [auto|].
  right. right. apply elem_of_events. exists i. split; [lia|]. right. left.
Qed.

Lemma own_loop (f : nat -> T) n lo ws : (aDst, lo - 1) ∈ ws -> 1 <= lo ->
  own_first (fun l => l.1 = aDst) ws (mjoin ((fun i => [ERd (aDst, i - 1); EWr (aDst, i) (Some (f i))]) <$> seq lo n)).
Proof.
  revert lo ws. induction n as [|n IH]; intros lo ws Hin Hlo; [exact I|].
  cbn [seq]. rewrite fmap_cons, mjoin_cons. simpl. split; [auto|].
  apply IH; [|lia]. replace (S lo - 1) with lo by lia. left.
Qed.

Lemma own_ev2 f t : own_first (fun l => l.1 = aDst) [] (ev2 f t).
Proof.
  unfold ev2. apply own_first_app.
  - generalize 0 (@nil loc). induction t as [|t IH]; intros k ws; [exact I|].
    cbn [seq]. rewrite fmap_cons, mjoin_cons. simpl. split; [discriminate|]. apply IH.
  - intros ws' _ _. simpl. apply own_loop; [|lia]. replace (st t + 1 - 1) with (st t) by lia. left.
Qed.

Lemma ev2_compat f : compat (ev2 f <$> seq 0 nt).
Proof.
  intros t u et eu l v Hne Ht Hu Hw. apply list_lookup_fmap_inv in Ht as (t' & -> & Ht). apply list_lookup_fmap_inv in Hu as (u' & -> & Hu).
  apply ev2_writes in Hw as (i & -> & -> & _). split.
  - intros pre post Heq. destruct (own_first_spec _ _ _ (own_ev2 f u') pre (aDst, i) post Heq eq_refl) as [Hin|Hex]; [inversion Hin|exact Hex].
  - intros v' Hv'. apply ev2_writes in Hv' as (j & Heq & -> & _). congruence.
Qed.

Lemma final2 f m i : i < size -> final_mem (ev2 f <$> seq 0 nt) m !! (aDst, i) = Some (Some (f i)).
Proof.
  intros Hi. destruct (scan_cover i Hi) as (t & Ht & Hst).
  assert (Hw : EWr (aDst, i) (Some (f i)) ∈ ev2 f t) by (apply ev2_write; lia).
  erewrite final_mem_in with (t := t); [|apply ev2_compat| |exact Hw].
  - apply apply_evs_all; [eauto|]. intros v Hv. apply ev2_writes in Hv as (j & Heq & -> & _). congruence.
  - rewrite list_lookup_fmap, lookup_seq_lt by lia. reflexivity.
Qed.

Lemma final2_other f m l : (forall i, i < size -> l <> (aDst, i)) -> final_mem (ev2 f <$> seq 0 nt) m !! l = m !! l.
Proof.
  intros Hl. apply final_mem_notin. intros t et v Ht Hin. apply list_lookup_fmap_inv in Ht as (t' & -> & Ht).
  apply lookup_seq in Ht as [-> Ht]. apply ev2_writes in Hin as (i & -> & _ & Hi).
  apply (Hl i); [|reflexivity]. pose proof (st_lt (0 + t) ltac:(lia)). pose proof (st_en (0 + t) ltac:(lia)). lia.
Qed.

Definition ev1 (t : nat) : list (@event loc (option T)) := [EWr (aPart, t) (Some (part t))].

Lemma ev1_strict : strict (ev1 <$> seq 0 nt).
Proof.
  intros t u et eu l v Hne Ht Hu Hw. apply list_lookup_fmap_inv in Ht as (t' & -> & Ht). apply list_lookup_fmap_inv in Hu as (u' & -> & Hu).
  apply lookup_seq in Ht as [-> Ht]. apply lookup_seq in Hu as [-> Hu].
  unfold ev1 in *. apply elem_of_list_singleton in Hw. simplify_eq.
  split; [|split; [|intros v']]; intros Hx; apply elem_of_list_singleton in Hx; simplify_eq.
Qed.

Lemma final1_part m : isPart (final_mem (ev1 <$> seq 0 nt) m).
Proof.
  intros i Hi. erewrite final_mem_in with (t := i) (et := ev1 i) (v := Some (part i)); [|apply strict_compat, ev1_strict| |left].
  - simpl. apply lookup_insert.
  - rewrite list_lookup_fmap, lookup_seq_lt by lia. reflexivity.
Qed.

Lemma final1_dst m i : final_mem (ev1 <$> seq 0 nt) m !! (aDst, i) = m !! (aDst, i).
Proof.
  apply final_mem_notin. intros t et v Ht Hin. apply list_lookup_fmap_inv in Ht as (t' & -> & Ht).
  apply elem_of_list_singleton in Hin. discriminate.
Qed.

Lemma imap_threads {X} (f : nat -> unit -> X) t p : imap f (replicate nt tt) !! t = Some p -> t < nt /\ p = f t tt.
Proof.
  intros H. rewrite list_lookup_imap in H. destruct (replicate nt tt !! t) as [[]|] eqn:Hr; [|discriminate].
  apply lookup_replicate in Hr as [_ Hr]. simplify_eq/=. auto.
Qed.

Section Mem.
Variable dst : list (option T).
Hypothesis Hdst : size <= length dst.
Notation m0 := (scanMem dst nt).

Lemma m0_dst i : m0 !! (aDst, i) = dst !! i.
Proof.
  unfold scanMem. rewrite lookup_union, !cells_lookup. simpl.
  destruct (dst !! i); reflexivity.
Qed.
Lemma m0_part i : i < nt -> m0 !! (aPart, i) = Some None.
Proof.
  intros Hi. unfold scanMem. rewrite lookup_union, !cells_lookup. simpl.
  rewrite lookup_replicate_2 by exact Hi. reflexivity.
Qed.

Notation m1 := (final_mem (ev1 <$> seq 0 nt) m0).

Lemma m1_dst i : i < size -> is_Some (m1 !! (aDst, i)).
Proof. intros Hi. rewrite final1_dst, m0_dst. apply lookup_lt_is_Some_2. lia. Qed.

Lemma phase1_always : always (m0, imap (fun t _ => scanPhase1 src size nt t) (replicate nt tt)) m1 (replicate nt tt).
Proof.
  apply phase_always.
  - rewrite imap_length, fmap_length, seq_length, replicate_length. reflexivity.
  - rewrite imap_length, replicate_length. reflexivity.
  - intros t p evs r Hp He Hr. apply imap_threads in Hp as [Ht ->]. destruct r.
    rewrite list_lookup_fmap, lookup_seq_lt in He by lia. simplify_eq/=.
    apply phase1_solo; [exact Ht|]. rewrite m0_part by exact Ht. eauto.
  - apply strict_compat, ev1_strict.
Qed.

Lemma phase1_race_free : race_free (m0, imap (fun t _ => scanPhase1 src size nt t) (replicate nt tt)).
Proof.
  eapply phase_race_free with (evss := ev1 <$> seq 0 nt) (rs := replicate nt tt).
  - rewrite imap_length, fmap_length, seq_length, replicate_length. reflexivity.
  - rewrite imap_length, replicate_length. reflexivity.
  - intros t p evs r Hp He Hr. apply imap_threads in Hp as [Ht ->]. destruct r.
    rewrite list_lookup_fmap, lookup_seq_lt in He by lia. simplify_eq/=.
    apply phase1_solo; [exact Ht|]. rewrite m0_part by exact Ht. eauto.
  - apply ev1_strict.
Qed.

Lemma exc2_always : always (m1, imap (fun t _ => excPhase2 src size nt t) (replicate nt tt))
  (final_mem (ev2 (psum src) <$> seq 0 nt) m1) (replicate nt tt).
Proof.
  apply phase_always.
  - rewrite imap_length, fmap_length, seq_length, replicate_length. reflexivity.
  - rewrite imap_length, replicate_length. reflexivity.
  - intros t p evs r Hp He Hr. apply imap_threads in Hp as [Ht ->]. destruct r.
    rewrite list_lookup_fmap, lookup_seq_lt in He by lia. simplify_eq/=.
    apply exc2_solo; [exact Ht|apply final1_part|apply m1_dst].
  - apply ev2_compat.
Qed.

Lemma inc2_always : always (m1, imap (fun t _ => incPhase2 src size nt t) (replicate nt tt))
  (final_mem (ev2 (fun i => psum src (S i)) <$> seq 0 nt) m1) (replicate nt tt).
Proof.
  apply phase_always.
  - rewrite imap_length, fmap_length, seq_length, replicate_length. reflexivity.
  - rewrite imap_length, replicate_length. reflexivity.
  - intros t p evs r Hp He Hr. apply imap_threads in Hp as [Ht ->]. destruct r.
    rewrite list_lookup_fmap, lookup_seq_lt in He by lia. simplify_eq/=.
    apply inc2_solo; [exact Ht|apply final1_part|apply m1_dst].
  - apply ev2_compat.
Qed.

Definition scanned (f : nat -> T) : list (option T) := ((fun i => Some (f i)) <$> seq 0 size) ++ drop size dst.

Lemma scanned_sees f : scanSees dst (final_mem (ev2 f <$> seq 0 nt) m1) (scanned f).
Proof.
  split; [unfold scanned; rewrite app_length, fmap_length, seq_length, drop_length; lia|].
  intros i Hi. unfold scanned. destruct (decide (i < size)) as [Hlt|Hge].
  - rewrite final2 by exact Hlt. rewrite lookup_app_l by (rewrite fmap_length, seq_length; lia).
    rewrite list_lookup_fmap, lookup_seq_lt by lia. reflexivity.
  - rewrite final2_other by (intros j Hj; congruence || (intros [=]; lia)). rewrite final1_dst, m0_dst.
    rewrite lookup_app_r by (rewrite fmap_length, seq_length; lia). rewrite fmap_length, seq_length, lookup_drop.
    f_equal. lia.
Qed.

Lemma exc_region_always : exists m, region_always (excRegion zero plus src size nt) tt m0 (replicate nt tt) tt m (replicate nt tt)
  /\ scanSees dst m (scanned (psum src)).
Proof.
  eexists. split; [|apply scanned_sees].
  eapply ra_par; [apply phase1_always|]. eapply ra_par; [apply exc2_always|]. constructor.
Qed.

Lemma inc_region_always : exists m, region_always (incRegion zero plus src size nt) tt m0 (replicate nt tt) tt m (replicate nt tt)
  /\ scanSees dst m (scanned (fun i => psum src (S i))).
Proof.
  eexists. split; [|apply scanned_sees].
  eapply ra_par; [apply phase1_always|]. eapply ra_par; [apply inc2_always|]. constructor.
Qed.

(** With at least one element per thread there is no conflicting access at all. *)
Lemma ev2_strict f : nt <= size -> strict (ev2 f <$> seq 0 nt).
Proof.
  intros Hns t u et eu l v Hne Ht Hu Hw. apply list_lookup_fmap_inv in Ht as (t' & -> & Ht). apply list_lookup_fmap_inv in Hu as (u' & -> & Hu).
  apply lookup_seq in Ht as [-> Ht]. apply lookup_seq in Hu as [-> Hu]. simpl in *.
  assert (He : 1 <= size / nt) by (apply Nat.div_le_lower_bound; lia).
  assert (Hnonempty : forall t, t < nt -> st t < en t).
  { intros w Hwlt. unfold scanEnd. destruct (Nat.eqb_spec (w + 1) nt); [apply st_lt, Hwlt|]. unfold scanStart. nia. }
  assert (Hmono : forall a b, a < b -> b < nt -> en a <= st b).
  { intros a b Hab Hb. unfold scanEnd. destruct (Nat.eqb_spec (a + 1) nt); [lia|]. unfold scanStart. nia. }
  assert (Hdisj : forall i, st t <= i < en t -> ~ (st u <= i < en u)).
  { intros i Hi Hi'. destruct (Nat.lt_total t u) as [Hlt|[Heq|Hlt]]; [|congruence|].
    - pose proof (Hmono _ _ Hlt Hu). lia.
    - pose proof (Hmono _ _ Hlt Ht). lia. }
  pose proof (Hnonempty t Ht) as Net. pose proof (Hnonempty u Hu) as Neu.
  apply ev2_writes in Hw as (i & -> & -> & Hi).
  assert (Hi' : st t <= i < en t) by lia.
  assert (Hrd : forall e, e ∈ ev2 f u -> e = ERd (aDst, i) \/ e = EAny (aDst, i) -> False).
  { intros e Hin Hor. unfold ev2 in Hin. rewrite elem_of_app, elem_of_cons in Hin. destruct Hin as [H|[H|H]].
    - apply elem_of_events in H as (j & _ & H). apply elem_of_list_singleton in H. destruct Hor; subst; discriminate.
    - destruct Hor; subst; discriminate.
    - apply elem_of_events in H as (j & Hj & H). apply elem_of_cons in H as [H|H].
      + destruct Hor; subst; [|discriminate]. simplify_eq. apply (Hdisj (j - 1)); lia.
      + apply elem_of_list_singleton in H. destruct Hor; subst; discriminate. }
  repeat split.
  - intros H. apply (Hrd _ H). auto.
  - intros H. apply (Hrd _ H). auto.
  - intros v' H. apply ev2_writes in H as (j & Heq & _ & Hj). simplify_eq. apply (Hdisj j); lia.
Qed.

Lemma exc_race_free : nt <= size -> region_race_free (excRegion zero plus src size nt) tt m0 (replicate nt tt).
Proof.
  intros Hns. constructor; [apply phase1_race_free|]. intros m1' ss1 Ho.
  apply (proj1 phase1_always) in Ho. simplify_eq. constructor; [|constructor].
  eapply phase_race_free with (evss := ev2 (psum src) <$> seq 0 nt) (rs := replicate nt tt).
  - rewrite imap_length, fmap_length, seq_length, replicate_length. reflexivity.
  - rewrite imap_length, replicate_length. reflexivity.
  - intros t p evs r Hp He Hr. apply imap_threads in Hp as [Ht ->]. destruct r.
    rewrite list_lookup_fmap, lookup_seq_lt in He by lia. simplify_eq/=.
    apply exc2_solo; [exact Ht|apply final1_part|apply m1_dst].
  - apply ev2_strict, Hns.
Qed.

Lemma inc_race_free : nt <= size -> region_race_free (incRegion zero plus src size nt) tt m0 (replicate nt tt).
Proof.
  intros Hns. constructor; [apply phase1_race_free|]. intros m1' ss1 Ho.
  apply (proj1 phase1_always) in Ho. simplify_eq. constructor; [|constructor].
  eapply phase_race_free with (evss := ev2 (fun i => psum src (S i)) <$> seq 0 nt) (rs := replicate nt tt).
  - rewrite imap_length, fmap_length, seq_length, replicate_length. reflexivity.
  - rewrite imap_length, replicate_length. reflexivity.
  - intros t p evs r Hp He Hr. apply imap_threads in Hp as [Ht ->]. destruct r.
    rewrite list_lookup_fmap, lookup_seq_lt in He by lia. simplify_eq/=.
    apply inc2_solo; [exact Ht|apply final1_part|apply m1_dst].
  - apply ev2_strict, Hns.
Qed.
End Mem.
End Fix.
End Scan.
