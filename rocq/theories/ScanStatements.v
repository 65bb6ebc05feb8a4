(** scan.h: the sequential branches and the complete functions. *)
From Verif Require Import ScanModel ConcProofs BaseProofs ScanProofs.

Section Seq.
Context {T : Type} (zero : T) (plus : T -> T -> T).

Lemma seq_loop src size (dst : list (option T)) (f : nat -> T) (g : nat -> nat) d0 :
  1 <= size -> size <= length dst -> d0 = <[0 := Some (f 0)]> dst ->
  (forall i, 0 < i < size -> exists s, src !! g i = Some s /\ plus (f (i - 1)) s = f i) ->
  for_ 1 size (fun i d => x <- getI d (i - 1) ;; s <- get src (g i) ;; set_ d i (Some (plus x s))) d0
  = Ok (scanned size dst f).
Proof.
  intros Hs Hd -> Hf.
  destruct (for_inv (fun i d => length d = length dst /\ (forall j, j < i -> d !! j = Some (Some (f j))) /\ (forall j, i <= j -> d !! j = dst !! j))
    (fun i d => x <- getI d (i - 1) ;; s <- get src (g i) ;; set_ d i (Some (plus x s))) 1 size (<[0 := Some (f 0)]> dst)) as (d' & -> & Hl & Hlo & Hhi).
  - lia.
  - split; [apply insert_length|]. split.
    + intros j Hj. assert (j = 0) as -> by lia. apply list_lookup_insert. lia.
    + intros j Hj. apply list_lookup_insert_ne. lia.
  - intros i d Hi (Hl & Hlo & Hhi). destruct (Hf i ltac:(lia)) as (s & Hsrc & Hp).
    rewrite (getI_Some _ _ _ (Hlo (i - 1) ltac:(lia))), bind_Ok, (get_Some _ _ _ Hsrc), bind_Ok, Hp.
    rewrite set_Ok by lia. eexists. split; [reflexivity|]. split; [rewrite insert_length; exact Hl|]. split.
    + intros j Hj. destruct (decide (j = i)) as [->|Hne]; [apply list_lookup_insert; lia|].
      rewrite list_lookup_insert_ne by congruence. apply Hlo. lia.
    + intros j Hj. rewrite list_lookup_insert_ne by lia. apply Hhi. lia.
  - f_equal. apply list_eq. intros i. unfold scanned. destruct (decide (i < size)) as [Hlt|Hge].
    + rewrite lookup_app_l by (rewrite fmap_length, seq_length; lia). rewrite list_lookup_fmap, lookup_seq_lt by lia. apply Hlo, Hlt.
    + rewrite lookup_app_r by (rewrite fmap_length, seq_length; lia). rewrite fmap_length, seq_length, lookup_drop, Hhi by lia.
      f_equal. lia.
Qed.

Lemma excSeq_ok src size dst : 1 <= size <= length src -> size <= length dst ->
  excSeq zero plus src size dst = Ok (scanned size dst (psum zero plus src)).
Proof.
  intros Hs Hd. unfold excSeq. rewrite set_Ok by lia. rewrite bind_Ok.
  apply (seq_loop src size dst (psum zero plus src) (fun i => i - 1)); [lia|lia|reflexivity|].
  intros i Hi. destruct (lookup_lt_is_Some_2 src (i - 1)) as [s Hx]; [lia|]. exists s. split; [exact Hx|].
  rewrite <- (psum_S _ _ _ _ _ Hx). f_equal. lia.
Qed.

Lemma incSeq_ok src size dst : (forall x, plus zero x = x) -> 1 <= size <= length src -> size <= length dst ->
  incSeq plus src size dst = Ok (scanned size dst (fun i => psum zero plus src (S i))).
Proof.
  intros Hz Hs Hd. unfold incSeq. destruct (lookup_lt_is_Some_2 src 0) as [s0 Hs0]; [lia|].
  rewrite (get_Some _ _ _ Hs0), bind_Ok, set_Ok by lia. rewrite bind_Ok.
  apply (seq_loop src size dst (fun i => psum zero plus src (S i)) (fun i => i)); [lia|lia| |].
  - rewrite (psum_S _ _ _ _ _ Hs0). unfold psum. simpl. rewrite Hz. reflexivity.
  - intros i Hi. destruct (lookup_lt_is_Some_2 src i) as [s Hx]; [lia|]. exists s. split; [exact Hx|].
    rewrite (psum_S _ _ _ _ _ Hx). f_equal. f_equal. lia.
Qed.
End Seq.

Lemma exclusive_scan_ok {T} (zero : T) (plus : T -> T -> T) src size nt dst :
  (forall x y z, plus x (plus y z) = plus (plus x y) z) -> (forall x, plus zero x = x) -> (forall x, plus x zero = x) ->
  1 <= size <= length src -> size <= length dst -> 1 <= nt ->
  excScan_always zero plus src size nt dst
    (((fun i => Some (fold_left plus (take i src) zero)) <$> seq 0 size) ++ drop size dst).
Proof.
  intros Ha Hl Hr Hs Hd Hn. unfold excScan_always. destruct (excIsSeq size nt).
  - apply (excSeq_ok zero plus src size dst Hs Hd).
  - apply (exc_region_always zero plus Ha Hl Hr src size nt Hs Hn dst Hd).
Qed.

Lemma inclusive_scan_ok {T} (zero : T) (plus : T -> T -> T) src size nt dst :
  (forall x y z, plus x (plus y z) = plus (plus x y) z) -> (forall x, plus zero x = x) -> (forall x, plus x zero = x) ->
  1 <= size <= length src -> size <= length dst -> 1 <= nt ->
  incScan_always zero plus src size nt dst
    (((fun i => Some (fold_left plus (take (i + 1) src) zero)) <$> seq 0 size) ++ drop size dst).
Proof.
  intros Ha Hl Hr Hs Hd Hn.
  replace ((fun i => Some (fold_left plus (take (i + 1) src) zero)) <$> seq 0 size)
    with ((fun i => Some (psum zero plus src (S i))) <$> seq 0 size)
    by (apply list_fmap_ext; intros; rewrite Nat.add_comm; reflexivity).
  unfold incScan_always. destruct (incIsSeq size nt).
  - apply (incSeq_ok zero plus src size dst Hl Hs Hd).
  - apply (inc_region_always zero plus Ha Hl Hr src size nt Hs Hn dst Hd).
Qed.

Lemma exclusive_scan_race_free {T} (zero : T) (plus : T -> T -> T) src size nt dst :
  (forall x y z, plus x (plus y z) = plus (plus x y) z) -> (forall x, plus zero x = x) -> (forall x, plus x zero = x) ->
  1 <= size <= length src -> size <= length dst -> 1 <= nt <= size ->
  region_race_free (excRegion zero plus src size nt) tt (scanMem dst nt) (replicate nt tt).
Proof. intros Ha Hl Hr Hs Hd Hn. apply exc_race_free; auto; lia. Qed.

Lemma inclusive_scan_race_free {T} (zero : T) (plus : T -> T -> T) src size nt dst :
  (forall x y z, plus x (plus y z) = plus (plus x y) z) -> (forall x, plus zero x = x) -> (forall x, plus x zero = x) ->
  1 <= size <= length src -> size <= length dst -> 1 <= nt <= size ->
  region_race_free (incRegion zero plus src size nt) tt (scanMem dst nt) (replicate nt tt).
Proof. intros Ha Hl Hr Hs Hd Hn. apply inc_race_free; auto; lia. Qed.

(** Fewer elements than threads: all threads store to dst[0] after the barrier. *)
Lemma exclusive_scan_race_refuted : 
  ~ (forall (src : list nat) size nt dst, 1 <= size <= length src -> size <= length dst -> 1 <= nt ->
     region_race_free (excRegion 0 Nat.add src size nt) tt (scanMem dst nt) (replicate nt tt)).
Proof.
  intros H. specialize (H [5; 6] 2 3 [None; None]).
  pose proof (H ltac:(simpl; lia) ltac:(simpl; lia) ltac:(lia)) as Hr. clear H.
  assert (La : forall x y z, x + (y + z) = x + y + z) by (intros; lia).
  assert (Lr : forall x, x + 0 = x) by (intros; lia).
  pose proof (phase1_always 0 Nat.add La (fun x => eq_refl) Lr [5; 6] 2 3 ltac:(simpl; lia) ltac:(lia) [None; None] ltac:(simpl; lia)) as (_ & _ & Ho).
  pose proof (final1_part 0 Nat.add La (fun x => eq_refl) Lr [5; 6] 2 3 ltac:(simpl; lia) ltac:(lia) (scanMem [None; None] 3)) as Hp.
  inversion Hr as [|f phs e m1 ss H1 H2|]; subst. specialize (H2 _ _ Ho).
  inversion H2 as [|f2 phs2 e2' m3 ss3 H3 H4|]; subst. clear H2 H4 Ho.
  match type of H3 with race_free (?m, ?ps) => set (mm := m) in * end.
  eapply H3.
  - eapply rtc_once. eapply (step_rd mm _ 1); [reflexivity|apply (Hp 0); lia].
  - exists 0, 1. do 5 eexists. split; [lia|]. split; [reflexivity|]. split; [reflexivity|]. cbn. split; [reflexivity|]. split; reflexivity.
Qed.
