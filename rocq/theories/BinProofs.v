(** Proofs about BIN.h. *)
From stdpp Require Import numbers.
From Verif Require Import BinModel TwoPassModel BaseProofs ConcProofs ParProofs ScanProofs LegacyScanProofs WorkProofs IsectProofs TwoPassProofs.
From Verif Require MatStatements.
From Verif Require Import Base Spec.

(** Work in the rows before [i]. *)
Definition wsum (f : nat -> nat) (i : nat) : nat := sum_list (f <$> seq 0 i).
Lemma wsum_S f i : wsum f (S i) = wsum f i + f i.
Proof. unfold wsum. rewrite seq_S, fmap_app, sum_list_app. simpl. lia. Qed.
Lemma wsum_le f i j : i <= j -> wsum f i <= wsum f j.
Proof. induction 1 as [|j _ IH]; [lia|]. rewrite wsum_S. lia. Qed.
Lemma psum_wsum f n i : i <= n -> psum 0 Nat.add (f <$> seq 0 n) i = wsum f i.
Proof.
  induction i as [|i IH]; intros Hi; [reflexivity|]. rewrite wsum_S, <- IH by lia. apply psum_S.
  rewrite seq_at, decide_True by lia. reflexivity.
Qed.
Lemma wsum_nondecr f n : nondecr (wsum f <$> seq 0 n).
Proof.
  intros i j a b. rewrite !seq_at. destruct (decide (i < n)); [|discriminate]. destruct (decide (j < n)); [|discriminate].
  intros [= <-] [= <-]. apply wsum_le.
Qed.
Lemma wsum_ext f g n : (forall i, i < n -> f i = g i) -> wsum f n = wsum g n.
Proof. induction n as [|n IH]; intros H; [reflexivity|]. rewrite !wsum_S, IH, H by auto. reflexivity. Qed.

Section Intprod.
Context {V : Type}.
Lemma intprodRow_ok (A B : csr V) i : wf A -> wf B -> cols A = rows B -> i < rows A ->
  intprodRow (rowptr A) (colids A) (rowptr B) i = Ok (nprods A B i).
Proof.
  intros HA HB Hc Hi. rewrite <- (flopsRow_ok A B i HA HB Hc Hi). unfold intprodRow, flopsRow, KernelBase.row_bounds.
  destruct (get (rowptr A) i); [|reflexivity]. simpl. destruct (get (rowptr A) (i + 1)); reflexivity.
Qed.
End Intprod.

Lemma parfor_always_unique row n (d1 d2 dst : list (option nat)) t1 t2 :
  parfor_always row n dst d1 t1 -> parfor_always row n dst d2 t2 -> d1 = d2 /\ t1 = t2.
Proof.
  intros H1 H2. assert (Hj : mjoin [seq 0 n] ≡ₚ seq 0 n) by (rewrite mjoin_cons; simpl; rewrite app_nil_r; reflexivity).
  destruct (H1 [seq 0 n] Hj) as (m1 & p1 & A1 & L1 & C1 & S1).
  destruct (H2 [seq 0 n] Hj) as (m2 & p2 & A2 & L2 & C2 & S2).
  destruct (always_unique _ _ _ _ _ A1 A2) as [-> ->]. split.
  - apply list_eq_same_length with (n := length dst); [congruence..|]. intros i x y Hi Hx Hy.
    rewrite <- C1 in Hx by exact Hi. rewrite <- C2 in Hy by exact Hi. congruence.
  - rewrite <- (S1 p2), <- (S2 p2) by reflexivity. reflexivity.
Qed.

Section Bin.
Context (W top : nat).

(** ** Ranges of rows *)
Section Offsets.
Context (f : nat -> nat) (rows nt nts : nat).
Hypothesis Hnt : 1 <= nt.
Hypothesis HN : (N.of_nat (rows + 1) < 2 ^ 17)%N.
Let ps := wsum f <$> seq 0 (rows + 1).
Let total := wsum f rows.
Let avg := averageW W total nt.
Hypothesis HW : total + nt <= W.

Lemma avg_eq : avg = (total + nt - 1) / nt.
Proof. unfold avg, averageW. apply Nat.mod_small. apply Nat.le_lt_trans with (total + nt - 1); [apply Nat.div_le_upper_bound; nia|lia]. Qed.
Lemma avg_nt : total <= avg * nt /\ avg * nt < total + nt.
Proof.
  rewrite avg_eq. pose proof (Nat.div_mod_eq (total + nt - 1) nt) as E. pose proof (Nat.mod_upper_bound (total + nt - 1) nt ltac:(lia)). nia.
Qed.
Lemma avg_small t : t <= nt -> (avg * t) mod W = avg * t.
Proof. intros Ht. apply Nat.mod_small. pose proof avg_nt. nia. Qed.

(** End of thread [t - 1]'s range. *)
Definition lbOf (v : nat) : nat := match lower_bound ps (rows + 1) v with Ok r => r | Err _ => 0 end.
Definition cutOf (t : nat) : nat := if t =? 0 then 0 else if t =? nt then rows else Nat.min rows (lbOf (avg * t)).
Lemma lbOf_ok v : lower_bound ps (rows + 1) v = Ok (lbOf v) /\ is_lower_bound ps (rows + 1) v (lbOf v).
Proof.
  destruct (lower_bound_ok ps (rows + 1) v) as (r & E & H); [apply wsum_nondecr|unfold ps; rewrite fmap_length, seq_length; lia|].
  unfold lbOf. rewrite E. auto.
Qed.
Lemma ps_at i : i <= rows -> ps !! i = Some (wsum f i).
Proof. intros Hi. unfold ps. rewrite seq_at, decide_True by lia. reflexivity. Qed.
Lemma lbOf_mono v w : v <= w -> lbOf v <= lbOf w.
Proof.
  intros H. eapply is_lower_bound_mono; [|apply lbOf_ok|apply lbOf_ok|exact H]. unfold ps. rewrite fmap_length, seq_length. lia.
Qed.

Lemma cutOf_props : cutOf 0 = 0 /\ cutOf nt = rows /\ (forall t, t <= nt -> cutOf t <= rows) /\ (forall t, t < nt -> cutOf t <= cutOf (t + 1)).
Proof.
  unfold cutOf. split; [reflexivity|]. split; [rewrite Nat.eqb_refl; destruct (Nat.eqb_spec nt 0); [lia|reflexivity]|].
  split; intros t Ht.
  - destruct (t =? 0); [lia|]. destruct (t =? nt); lia.
  - destruct (Nat.eqb_spec t 0); [lia|]. destruct (Nat.eqb_spec t nt); [lia|].
    destruct (Nat.eqb_spec (t + 1) 0); [lia|]. destruct (Nat.eqb_spec (t + 1) nt); [lia|].
    pose proof (lbOf_mono (avg * t) (avg * (t + 1)) ltac:(nia)). lia.
Qed.

(** Thread [t]'s work exceeds the average by less than one row. *)
Lemma cutOf_balance t mx : t < nt -> (forall i, i < rows -> f i <= mx) -> wsum f (cutOf (t + 1)) - wsum f (cutOf t) <= avg + mx.
Proof.
  intros Ht Hmx. destruct cutOf_props as (C0 & Cn & Cr & Cm). pose proof avg_nt as Hav.
  assert (Hlo : cutOf t = rows \/ avg * t <= wsum f (cutOf t)).
  { unfold cutOf. destruct (Nat.eqb_spec t 0) as [->|Hz]; [right; rewrite Nat.mul_0_r; lia|]. destruct (Nat.eqb_spec t nt); [lia|].
    destruct (lbOf_ok (avg * t)) as [_ (H1 & H2 & H3)]. destruct (Nat.lt_ge_cases (lbOf (avg * t)) rows) as [Hl|Hl]; [right|left; lia].
    replace (Nat.min rows (lbOf (avg * t))) with (lbOf (avg * t)) by lia. apply (H3 (lbOf (avg * t))); [lia|]. apply ps_at. lia. }
  assert (Hhi : wsum f (cutOf (t + 1)) <= avg * (t + 1) + mx).
  { unfold cutOf. destruct (Nat.eqb_spec (t + 1) 0); [lia|]. destruct (Nat.eqb_spec (t + 1) nt) as [->|]; [fold total; lia|].
    destruct (lbOf_ok (avg * (t + 1))) as [_ (H1 & H2 & H3)]. set (r := lbOf (avg * (t + 1))) in *.
    destruct (Nat.min rows r) as [|q] eqn:Eq; [unfold wsum; simpl; lia|]. rewrite wsum_S.
    pose proof (H2 q (wsum f q) ltac:(lia) (ps_at q ltac:(lia))). specialize (Hmx q ltac:(lia)). lia. }
  destruct Hlo as [E|Hlo]; [|nia]. rewrite E in *. pose proof (wsum_le f (cutOf (t + 1)) rows (Cr (t + 1) ltac:(lia))). lia.
Qed.

Lemma offBody_solo (m : gmap loc nat) t : t < nt -> is_Some (m !! (bOff, t + 1)) ->
  exists mf, solo m (offBody W ps rows avg t) [EWr (bOff, t + 1) (Nat.min rows (lbOf (avg * (t + 1))))] tt mf.
Proof.
  intros Ht Hm. eexists. unfold offBody. rewrite avg_small by lia. eapply solo_lift; [apply lbOf_ok|].
  replace (if rows <? lbOf (avg * (t + 1)) then rows else lbOf (avg * (t + 1))) with (Nat.min rows (lbOf (avg * (t + 1))))
    by (destruct (Nat.ltb_spec rows (lbOf (avg * (t + 1)))); lia).
  apply solo_wr; [exact Hm|constructor].
Qed.

Lemma scan_ps : lScan_always 0 Nat.add top (f <$> seq 0 rows) (rows + 1) nts (replicate (rows + 1) (Some 0)) (Some <$> ps).
Proof.
  unfold lScan_always, lIsSeq. rewrite (proj2 (N.ltb_lt _ _) HN). rewrite seqScan_ok; try (intros; lia).
  - rewrite drop_ge by (rewrite replicate_length; lia). rewrite app_nil_r. f_equal. unfold ps. rewrite <- list_fmap_compose.
    apply list_eq. intros i. rewrite !seq_at. destruct (decide (i < rows + 1)); [|reflexivity]. simpl. rewrite psum_wsum by lia. reflexivity.
  - rewrite fmap_length, seq_length. lia.
  - rewrite replicate_length. lia.
Qed.

Lemma cells_inj {X : Type} a (l k : list X) : cells a l = cells a k -> l = k.
Proof.
  intros E. apply list_eq. intros i. assert (H : cells a l !! (a, i) = cells a k !! (a, i)) by (rewrite E; reflexivity).
  rewrite !cells_lookup, !decide_True in H by reflexivity. exact H.
Qed.

Lemma off_region off1 : length off1 = nt + 1 -> off1 !! 0 = Some 0 ->
  parfor_ends (offBody W ps rows avg) nt (cells bOff off1) (cells bOff (0 :: ((fun t => Nat.min rows (lbOf (avg * (t + 1)))) <$> seq 0 nt))) /\
  parfor_race_free (offBody W ps rows avg) nt (cells bOff off1).
Proof.
  intros Hl H0.
  set (evs := fun t : nat => [EWr (L := loc) (bOff, t + 1) (Nat.min rows (lbOf (avg * (t + 1))))]).
  set (own := fun t (l : loc) => l = (bOff, t + 1)). set (wv := fun l : loc => Some (Nat.min rows (lbOf (avg * (snd l))))).
  assert (Hsolo : forall i m, i < nt -> (forall l, is_Some (m !! l) <-> is_Some (cells bOff off1 !! l)) ->
    (forall l, own i l \/ (forall j, j < nt -> ~ own j l) -> m !! l = cells bOff off1 !! l) -> exists mf, solo m (offBody W ps rows avg i) (evs i) tt mf).
  { intros i m Hi Hd _. apply offBody_solo; [exact Hi|]. apply Hd. rewrite cells_lookup, decide_True by reflexivity. apply lookup_lt_is_Some_2. lia. }
  assert (Hw : forall i l v, i < nt -> EWr l v ∈ evs i -> own i l /\ wv l = Some v).
  { intros i l v _ Hin. apply elem_of_list_singleton in Hin. injection Hin as -> ->. split; reflexivity. }
  assert (Hr : forall i j l, i < nt -> j < nt -> ERd l ∈ evs i -> own j l -> j = i) by (intros i j l _ _ Hin; apply elem_of_list_singleton in Hin; discriminate).
  assert (Ha : forall i j l, i < nt -> j < nt -> EAny l ∈ evs i -> own j l -> j = i) by (intros i j l _ _ Hin; apply elem_of_list_singleton in Hin; discriminate).
  assert (Hx : forall i j l, i < nt -> j < nt -> own i l -> own j l -> i = j) by (unfold own; intros i j l _ _ -> [= H]; lia).
  split; [|exact (parfor_owned_race _ nt _ evs own wv Hsolo Hw Hr Ha Hx)].
  destruct (parfor_owned _ nt _ evs own wv Hsolo Hw Hr Ha Hx) as (m' & Hend & Hwr & Hkp).
  match goal with |- parfor_ends _ _ _ ?M => replace M with m'; [exact Hend|] end. apply map_eq. intros [a i].
  rewrite cells_lookup. destruct (decide (a = bOff)) as [->|Hne].
  - destruct i as [|i].
    + rewrite Hkp; [rewrite cells_lookup, decide_True by reflexivity; exact H0|]. intros t v _ Hin. apply elem_of_list_singleton in Hin. injection Hin as E. lia.
    + cbn [lookup list_lookup]. change ((fun t : nat => Nat.min rows (lbOf (avg * (t + 1)))) <$> seq 0 nt) with ((fun t : nat => Nat.min rows (lbOf (avg * (t + 1)))) <$> seq 0 nt).
      transitivity (((fun t : nat => Nat.min rows (lbOf (avg * (t + 1)))) <$> seq 0 nt) !! i); [|reflexivity]. rewrite seq_at. destruct (decide (i < nt)) as [Hi|Hi].
      * apply (Hwr i); [exact Hi|]. unfold evs. rewrite Nat.add_1_r. left.
      * rewrite Hkp; [rewrite cells_lookup, decide_True by reflexivity; apply lookup_ge_None_2; lia|].
        intros t v Ht Hin. apply elem_of_list_singleton in Hin. injection Hin as E. lia.
  - rewrite Hkp; [rewrite cells_lookup, decide_False by exact Hne; reflexivity|]. intros t v _ Hin. apply elem_of_list_singleton in Hin. congruence.
Qed.

Lemma offsets_ok : let off' := cutOf <$> seq 0 (nt + 1) in
  set_rows_offset_ends W top nts nt (f <$> seq 0 rows) total rows (replicate (nt + 1) 0) off' /\
  (forall off2, set_rows_offset_ends W top nts nt (f <$> seq 0 rows) total rows (replicate (nt + 1) 0) off2 -> off2 = off').
Proof.
  intros off'. pose proof scan_ps as Hsc.
  assert (Hs0 : set_ (replicate (nt + 1) 0) 0 0 = Ok (<[0 := 0]> (replicate (nt + 1) 0))) by (apply set_Ok; rewrite replicate_length; lia).
  destruct (off_region (<[0 := 0]> (replicate (nt + 1) 0))) as [Pr _];
    [rewrite insert_length, replicate_length; reflexivity|apply list_lookup_insert; rewrite replicate_length; lia|].
  set (off2 := 0 :: ((fun t => Nat.min rows (lbOf (avg * (t + 1)))) <$> seq 0 nt)) in *.
  assert (Hs2 : set_ off2 nt rows = Ok off').
  { rewrite set_Ok by (unfold off2; simpl; rewrite fmap_length, seq_length; lia). f_equal. apply list_eq. intros i. unfold off'. rewrite seq_at.
    destruct (decide (i = nt)) as [->|Hne].
    - rewrite list_lookup_insert by (unfold off2; simpl; rewrite fmap_length, seq_length; lia). rewrite decide_True by lia.
      destruct cutOf_props as (_ & -> & _). reflexivity.
    - rewrite list_lookup_insert_ne by congruence. unfold off2. destruct i as [|i]; [rewrite decide_True by lia; reflexivity|].
      transitivity (((fun t : nat => Nat.min rows (lbOf (avg * (t + 1)))) <$> seq 0 nt) !! i); [reflexivity|]. rewrite seq_at.
      destruct (decide (i < nt)).
      + rewrite decide_True by lia. unfold cutOf. destruct (Nat.eqb_spec (S i) nt); [lia|]. simpl. rewrite Nat.add_1_r. reflexivity.
      + rewrite decide_False by lia. reflexivity. }
  split.
  - exists ps, (<[0 := 0]> (replicate (nt + 1) 0)), off2. split; [exact Hsc|]. split; [exact Hnt|]. split; [exact Hs0|]. split; [exact Pr|exact Hs2].
  - intros o (ps' & o1 & o2 & Q1 & _ & Q2 & Q3 & Q4). rewrite Hs0 in Q2. injection Q2 as <-.
    assert (ps' = ps) as ->.
    { unfold lScan_always in Q1, Hsc. assert (Es : lIsSeq (rows + 1) = true) by (apply N.ltb_lt; exact HN). rewrite Es in Q1, Hsc.
      rewrite Hsc in Q1. injection Q1 as Q1. apply (inj (fmap Some)) in Q1. symmetry. exact Q1. }
    pose proof (MatStatements.parfor_ends_unique _ _ _ _ _ Q3 Pr) as E. apply cells_inj in E as ->. congruence.
Qed.
End Offsets.

(** From 2^17 - 1 rows on, set_rows_offset's prefix sum reads past row_nz. *)
Lemma offsets_large f rows nt nts total off off' : (2 ^ 17 <= N.of_nat (rows + 1))%N -> 1 <= nts <= rows + 1 ->
  ~ set_rows_offset_ends W top nts nt (f <$> seq 0 rows) total rows off off'.
Proof.
  intros HN Hnt (ps & o1 & o2 & Q & _).
  assert (Hf : region_outcome (lRegion 0 Nat.add top (f <$> seq 0 rows) (rows + 1) nts) tt (lMem 0 (replicate (rows + 1) (Some 0)) nts) (replicate nts tt) (Err OutOfBounds)).
  { apply lregion_fails; try (intros; lia); [rewrite replicate_length; lia|rewrite fmap_length, seq_length; lia]. }
  unfold lScan_always in Q. replace (lIsSeq (rows + 1)) with false in Q by (symmetry; apply N.ltb_ge; exact HN).
  destruct Q as (m & Qs & _). apply (region_always_outcome _ _ _ _ _ _ _ _ Qs) in Hf. discriminate.
Qed.

(** ** Bins and table sizes *)
(** [j] is the least number with [n <= min * 2^j]. *)
Definition least_exp (min n j : nat) : Prop := n <= min * 2 ^ j /\ forall j', j' < j -> min * 2 ^ j' < n.

Lemma least_exp_unique min n j k : least_exp min n j -> least_exp min n k -> j = k.
Proof.
  intros [H1 H2] [H3 H4]. destruct (Nat.lt_trichotomy j k) as [H|[H|H]]; [|exact H|]; [specialize (H4 j H)|specialize (H2 k H)]; lia.
Qed.
Lemma least_exp_le min n k j : 1 <= min -> n <= k -> forall j', least_exp min n j -> least_exp min k j' -> j <= j'.
Proof.
  intros Hm Hnk j' [H1 H2] [H3 H4]. destruct (Nat.lt_ge_cases j' j) as [H|H]; [|exact H]. specialize (H2 j' H). lia.
Qed.
Lemma exp_bound min n j : 1 <= min -> (forall j', j' < j -> min * 2 ^ j' < n) -> 1 <= n -> j <= n.
Proof.
  intros Hm H Hn. destruct j as [|j]; [lia|]. specialize (H j ltac:(lia)). pose proof (Nat.pow_gt_lin_r 2 j ltac:(lia)). nia.
Qed.
Lemma exp_small min n j : (forall j', j' < j -> min * 2 ^ j' < n) -> 2 * n <= W -> min < W -> (min * 2 ^ j) mod W = min * 2 ^ j.
Proof.
  intros H HW Hm. apply Nat.mod_small. destruct j as [|j]; [simpl; lia|]. specialize (H j ltac:(lia)). simpl. lia.
Qed.

Lemma binLoop_ok min n : 1 <= min -> min < W -> 1 <= n -> 2 * n <= W -> forall fuel j, n < fuel + j ->
  (forall j', j' < j -> min * 2 ^ j' < n) -> exists j', binLoop W fuel min n j = Ok j' /\ least_exp min n j'.
Proof.
  intros Hm HmW Hn HnW fuel. induction fuel as [|fuel IH]; intros j Hf Hj.
  - pose proof (exp_bound min n j Hm Hj Hn). lia.
  - cbn [binLoop]. rewrite (exp_small min n j Hj HnW HmW). destruct (Nat.ltb_spec (min * 2 ^ j) n) as [Hlt|Hge].
    + apply IH; [lia|]. intros j' Hj'. destruct (decide (j' = j)) as [->|]; [exact Hlt|]. apply Hj. lia.
    + exists j. split; [reflexivity|]. split; assumption.
Qed.

Lemma growLoop_ok min n : 1 <= min -> min < W -> 1 <= n -> 2 * n <= W -> forall fuel j, n < fuel + j ->
  (forall j', j' < j -> min * 2 ^ j' < n) -> exists j', growLoop W fuel (min * 2 ^ j) n = Ok (min * 2 ^ j') /\ least_exp min n j'.
Proof.
  intros Hm HmW Hn HnW fuel. induction fuel as [|fuel IH]; intros j Hf Hj.
  - pose proof (exp_bound min n j Hm Hj Hn). lia.
  - cbn [growLoop]. destruct (Nat.ltb_spec (min * 2 ^ j) n) as [Hlt|Hge].
    + assert (Hj1 : forall j', j' < j + 1 -> min * 2 ^ j' < n) by (intros j' Hj'; destruct (decide (j' = j)) as [->|]; [exact Hlt|apply Hj; lia]).
      replace (min * 2 ^ j * 2) with (min * 2 ^ (j + 1)) by (rewrite Nat.add_1_r; simpl; lia).
      rewrite (exp_small min n (j + 1) Hj1 HnW HmW). apply IH; [lia|exact Hj1].
    + exists j. split; [reflexivity|]. split; assumption.
Qed.

(** Rows with more than half the range of the index type: the loop never ends. *)
Lemma binLoop_diverges w a n fuel j : W = 2 ^ w -> 2 ^ (w - 1) < n -> binLoop W fuel (2 ^ a) n j = Err OutOfFuel.
Proof.
  intros HW Hn. revert j. induction fuel as [|fuel IH]; intros j; [reflexivity|]. cbn [binLoop].
  destruct (Nat.ltb_spec ((2 ^ a * 2 ^ j) mod W) n) as [Hlt|Hge]; [apply IH|]. exfalso. rewrite <- Nat.pow_add_r, HW in Hge.
  destruct (Nat.lt_ge_cases (a + j) w) as [Hl|Hl].
  - rewrite Nat.mod_small in Hge by (apply Nat.pow_lt_mono_r; lia). pose proof (Nat.pow_le_mono_r 2 (a + j) (w - 1)). lia.
  - replace (a + j) with (w + (a + j - w)) in Hge by lia. rewrite Nat.pow_add_r, Nat.mul_comm, Nat.mod_mul in Hge by (apply Nat.pow_nonzero; lia). lia.
Qed.

Lemma growLoop_diverges a n fuel k : 2 ^ (a - 1) < n -> growLoop (2 ^ a) fuel (2 ^ k mod 2 ^ a) n = Err OutOfFuel.
Proof.
  intros Hn. assert (Hp : 2 ^ a <> 0) by (apply Nat.pow_nonzero; lia).
  revert k. induction fuel as [|fuel IH]; intros k; [reflexivity|]. cbn [growLoop].
  destruct (Nat.ltb_spec (2 ^ k mod 2 ^ a) n) as [Hlt|Hge].
  - rewrite Nat.mul_mod_idemp_l by exact Hp.
    replace (2 ^ k * 2) with (2 ^ Datatypes.S k) by (simpl; lia). apply IH.
  - exfalso. destruct (Nat.lt_ge_cases k a) as [Hl|Hl].
    + rewrite Nat.mod_small in Hge by (apply Nat.pow_lt_mono_r; lia). pose proof (Nat.pow_le_mono_r 2 k (a - 1)). lia.
    + replace k with (a + (k - a)) in Hge by lia. rewrite Nat.pow_add_r, Nat.mul_comm, Nat.mod_mul in Hge by exact Hp. lia.
Qed.

(** The bin of a row with [n] = min(products, columns). *)
Definition binOf (min n b : nat) : Prop := if n =? 0 then b = 0 else exists j, b = j + 1 /\ least_exp min n j.

Lemma binRow_ok nz cols min i x : 1 <= min -> min < W -> nz !! i = Some x -> 2 * Nat.min x cols <= W ->
  exists b, binRow W nz cols min i = Ok b /\ binOf min (Nat.min x cols) b.
Proof.
  intros Hm HmW Hx HW. unfold binRow. rewrite (get_Some _ _ _ Hx), bind_Ok. cbv zeta.
  replace (if cols <? x then cols else x) with (Nat.min x cols) by (destruct (Nat.ltb_spec cols x); lia).
  set (n := Nat.min x cols) in *. unfold binOf. destruct (Nat.eqb_spec n 0) as [E|E]; [eauto|].
  destruct (binLoop_ok min n Hm HmW ltac:(lia) HW (S n) 0 ltac:(lia) ltac:(intros; lia)) as (j & -> & Hj). simpl. eauto.
Qed.

Section Ids.
Context (f : nat -> nat) (rows cols min : nat).
Hypothesis Hm : 1 <= min.
Hypothesis HmW : min < W.
Hypothesis Hf : forall i, i < rows -> 2 * Nat.min (f i) cols <= W.
Definition idOf (i : nat) : nat := match binRow W (f <$> seq 0 rows) cols min i with Ok b => b | Err _ => 0 end.
Lemma idOf_ok i : i < rows -> binRow W (f <$> seq 0 rows) cols min i = Ok (idOf i) /\ binOf min (Nat.min (f i) cols) (idOf i).
Proof.
  intros Hi. destruct (binRow_ok (f <$> seq 0 rows) cols min i (f i) Hm HmW) as (b & E & Hb); [rewrite seq_at, decide_True by lia; reflexivity|apply Hf, Hi|].
  unfold idOf. rewrite E. auto.
Qed.
Lemma bin_region id0 : length id0 = rows ->
  set_bin_id_ends W (f <$> seq 0 rows) rows cols min id0 (idOf <$> seq 0 rows) /\
  parfor_race_free (binBody W (f <$> seq 0 rows) cols min) rows (cells bId id0).
Proof.
  intros Hl. unfold set_bin_id_ends.
  set (evs := fun t : nat => [EWr (L := loc) (bId, t) (idOf t)]).
  set (own := fun t (l : loc) => l = (bId, t)). set (wv := fun l : loc => Some (idOf (snd l))).
  assert (Hsolo : forall i m, i < rows -> (forall l, is_Some (m !! l) <-> is_Some (cells bId id0 !! l)) ->
    (forall l, own i l \/ (forall j, j < rows -> ~ own j l) -> m !! l = cells bId id0 !! l) -> exists mf, solo m (binBody W (f <$> seq 0 rows) cols min i) (evs i) tt mf).
  { intros i m Hi Hd _. eexists. unfold binBody. eapply solo_lift; [apply idOf_ok, Hi|]. apply solo_wr; [|constructor].
    apply Hd. rewrite cells_lookup, decide_True by reflexivity. apply lookup_lt_is_Some_2. lia. }
  assert (Hw : forall i l v, i < rows -> EWr l v ∈ evs i -> own i l /\ wv l = Some v).
  { intros i l v _ Hin. apply elem_of_list_singleton in Hin. injection Hin as -> ->. split; reflexivity. }
  assert (Hr : forall i j l, i < rows -> j < rows -> ERd l ∈ evs i -> own j l -> j = i) by (intros i j l _ _ Hin; apply elem_of_list_singleton in Hin; discriminate).
  assert (Ha : forall i j l, i < rows -> j < rows -> EAny l ∈ evs i -> own j l -> j = i) by (intros i j l _ _ Hin; apply elem_of_list_singleton in Hin; discriminate).
  assert (Hx : forall i j l, i < rows -> j < rows -> own i l -> own j l -> i = j) by (unfold own; intros i j l _ _ -> [= H]; lia).
  split; [|exact (parfor_owned_race _ rows _ evs own wv Hsolo Hw Hr Ha Hx)].
  destruct (parfor_owned _ rows _ evs own wv Hsolo Hw Hr Ha Hx) as (m' & Hend & Hwr & Hkp).
  replace (cells bId (idOf <$> seq 0 rows)) with m'; [exact Hend|]. apply map_eq. intros [a i].
  rewrite cells_lookup. destruct (decide (a = bId)) as [->|Hne].
  - rewrite seq_at. destruct (decide (i < rows)) as [Hi|Hi].
    + apply (Hwr i); [exact Hi|]. left.
    + rewrite Hkp; [rewrite cells_lookup, decide_True by reflexivity; apply lookup_ge_None_2; lia|].
      intros t v Ht Hin. apply elem_of_list_singleton in Hin. injection Hin as E. lia.
  - rewrite Hkp; [rewrite cells_lookup, decide_False by exact Hne; reflexivity|]. intros t v _ Hin. apply elem_of_list_singleton in Hin. congruence.
Qed.
End Ids.

(** Table size of a thread. *)
Lemma localSize_ok f rows min cols off t lo hi : 1 <= min -> min < W -> off !! t = Some lo -> off !! (t + 1) = Some hi -> lo <= hi <= rows ->
  (forall i, i < rows -> 2 * Nat.min (f i) cols <= W) -> (cols = 0 -> forall i, i < rows -> f i = 0) ->
  exists sz, localSize W (f <$> seq 0 rows) off min cols t = Ok sz /\
    (forall i, lo <= i < hi -> forall b, binOf min (Nat.min (f i) cols) b -> 1 <= b -> min * 2 ^ (b - 1) <= sz) /\
    (if maxOver f lo hi =? 0 then sz = 0 else exists j, sz = min * 2 ^ j /\ least_exp min (Nat.min (maxOver f lo hi) cols) j).
Proof.
  intros Hm HmW Hlo Hhi Hle Hf Hc. unfold localSize. rewrite (get_Some _ _ _ Hlo), bind_Ok, (get_Some _ _ _ Hhi), bind_Ok.
  match goal with |- context [for_ lo hi ?bd 0] => destruct (for_inv (fun i s => s = maxOver f lo i) bd lo hi 0) as (s' & -> & ->); [lia| | |] end.
  - unfold maxOver. rewrite Nat.sub_diag. reflexivity.
  - intros i s Hi ->. eexists. split; cycle 1; [reflexivity|]. rewrite (get_Some _ i (f i)) by (rewrite seq_at, decide_True by lia; reflexivity).
    rewrite bind_Ok, Nat.add_1_r, maxOver_S by lia. f_equal. destruct (Nat.ltb_spec (maxOver f lo i) (f i)); lia.
  - rewrite bind_Ok. destruct (Nat.eqb_spec (maxOver f lo hi) 0) as [E|E].
    + rewrite E. exists 0. split; [reflexivity|]. split; [|reflexivity]. intros i Hi b Hb Hb1. pose proof (maxOver_ge f lo hi i Hi).
      unfold binOf in Hb. replace (Nat.min (f i) cols) with 0 in Hb by lia. simpl in Hb. lia.
    + destruct (Nat.ltb_spec 0 (maxOver f lo hi)); [|lia]. cbv zeta.
      replace (if cols <? maxOver f lo hi then cols else maxOver f lo hi) with (Nat.min (maxOver f lo hi) cols) by (destruct (Nat.ltb_spec cols (maxOver f lo hi)); lia).
      set (n := Nat.min (maxOver f lo hi) cols).
      assert (Hn : 2 * n <= W).
      { assert (Hex : exists i, lo <= i < hi /\ f i = maxOver f lo hi).
        { clear -E. unfold maxOver in *. assert (H : foldr Nat.max 0 (f <$> seq lo (hi - lo)) <> 0 -> exists i, i ∈ seq lo (hi - lo) /\ f i = foldr Nat.max 0 (f <$> seq lo (hi - lo))).
          { clear E. induction (seq lo (hi - lo)) as [|x l IH]; [simpl; lia|]. rewrite fmap_cons. simpl. intros Hne.
            destruct (Nat.le_gt_cases (foldr Nat.max 0 (f <$> l)) (f x)) as [Hx|Hx].
            - exists x. split; [left|]. rewrite Nat.max_l; [reflexivity|exact Hx].
            - destruct IH as (i & Hi & Ei); [lia|]. exists i. split; [right; exact Hi|]. rewrite Nat.max_r; [exact Ei|lia]. }
          destruct (H E) as (i & Hi & Ei). exists i. apply elem_of_seq in Hi. split; [lia|exact Ei]. }
        destruct Hex as (i & Hi & Ei). unfold n. rewrite <- Ei. apply Hf. lia. }
      assert (Hn1 : 1 <= n).
      { destruct (decide (cols = 0)) as [Ez|Ez]; [|unfold n; lia]. destruct E.
        assert (Hz : forall k, lo + k <= hi -> maxOver f lo (lo + k) = 0).
        { induction k as [|k IHk]; intros Hk; [rewrite Nat.add_0_r; unfold maxOver; rewrite Nat.sub_diag; reflexivity|].
          rewrite Nat.add_succ_r, maxOver_S by lia. rewrite IHk, (Hc Ez (lo + k)) by lia. reflexivity. }
        specialize (Hz (hi - lo) ltac:(lia)). replace (lo + (hi - lo)) with hi in Hz by lia. exact Hz. }
      destruct (growLoop_ok min n Hm HmW Hn1 Hn (S n) 0 ltac:(lia) ltac:(intros; lia)) as (j & Eg & Hj).
      rewrite Nat.pow_0_r, Nat.mul_1_r in Eg. exists (min * 2 ^ j). split; [exact Eg|]. split; [|eauto].
      intros i Hi b Hb Hb1. pose proof (maxOver_ge f lo hi i Hi) as Hmx. unfold binOf in Hb. destruct (Nat.eqb_spec (Nat.min (f i) cols) 0); [lia|].
      destruct Hb as (j' & -> & Hj'). rewrite Nat.add_sub.
      assert (j' <= j) by (eapply (least_exp_le min (Nat.min (f i) cols) n); [exact Hm|unfold n; lia|exact Hj'|exact Hj]).
      apply Nat.mul_le_mono_l, Nat.pow_le_mono_r; lia.
Qed.
End Bin.

(** ** set_max_bin as a whole *)
Section Max.
Context {V : Type} (W top : nat) (A B : csr V) (nts nt min : nat).
Let f := nprods A B.
Definition binFor : bin :=
  mkBin (f <$> seq 0 (rows A)) (wsum f (rows A)) (cutOf W f (rows A) nt <$> seq 0 (nt + 1)) (idOf W f (rows A) (cols B) min <$> seq 0 (rows A)).

Lemma set_max_bin_ok : wf A -> wf B -> cols A = rows B -> rows A <> 0 -> 1 <= nt -> (N.of_nat (rows A + 1) < 2 ^ 17)%N ->
  wsum f (rows A) + nt <= W -> 1 <= min -> min < W -> (forall i, i < rows A -> 2 * Nat.min (f i) (cols B) <= W) ->
  set_max_bin_ends W top nts nt min (rowptr A) (colids A) (rowptr B) (rows A) (cols B) binFor /\
  (forall b, set_max_bin_ends W top nts nt min (rowptr A) (colids A) (rowptr B) (rows A) (cols B) b -> b = binFor).
Proof.
  intros HA HB Hc H0 Hnt HN HW Hm HmW Hf.
  assert (P1 : set_intprod_num_always (rowptr A) (colids A) (rowptr B) (rows A) (replicate (rows A) (Some 0)) (Some <$> (f <$> seq 0 (rows A))) (wsum f (rows A))).
  { unfold set_intprod_num_always.
    pose proof (parfor_ok (intprodRow (rowptr A) (colids A) (rowptr B)) f (rows A) ltac:(intros i Hi; apply intprodRow_ok; assumption) (replicate (rows A) (Some 0)) ltac:(rewrite replicate_length; lia)) as P.
    rewrite drop_ge, app_nil_r in P by (rewrite replicate_length; lia). rewrite <- list_fmap_compose. exact P. }
  destruct (offsets_ok W top f (rows A) nt nts Hnt HN HW) as [P2 U2].
  destruct (bin_region W f (rows A) (cols B) min Hm HmW Hf (replicate (rows A) 0) ltac:(apply replicate_length)) as [P3 _].
  split.
  - split; [exact H0|]. split; [exact P1|]. split; [exact P2|exact P3].
  - intros [nz tot off id] (_ & Q1 & Q2 & Q3). cbn [b_nz b_total b_off b_id] in *.
    destruct (parfor_always_unique _ _ _ _ _ _ _ Q1 P1) as [E ->]. apply (inj (fmap Some)) in E as ->.
    apply U2 in Q2 as ->. pose proof (MatStatements.parfor_ends_unique _ _ _ _ _ Q3 P3) as E. apply cells_inj in E as ->. reflexivity.
Qed.

Lemma set_max_bin_large b : wf A -> wf B -> cols A = rows B -> (2 ^ 17 <= N.of_nat (rows A + 1))%N -> 1 <= nts <= rows A + 1 ->
  ~ set_max_bin_ends W top nts nt min (rowptr A) (colids A) (rowptr B) (rows A) (cols B) b.
Proof.
  intros HA HB Hc HN Hn (_ & Q1 & Q2 & _).
  assert (P1 : set_intprod_num_always (rowptr A) (colids A) (rowptr B) (rows A) (replicate (rows A) (Some 0)) (Some <$> (f <$> seq 0 (rows A))) (wsum f (rows A))).
  { unfold set_intprod_num_always.
    pose proof (parfor_ok (intprodRow (rowptr A) (colids A) (rowptr B)) f (rows A) ltac:(intros i Hi; apply intprodRow_ok; assumption) (replicate (rows A) (Some 0)) ltac:(rewrite replicate_length; lia)) as P.
    rewrite drop_ge, app_nil_r in P by (rewrite replicate_length; lia). rewrite <- list_fmap_compose. exact P. }
  destruct (parfor_always_unique _ _ _ _ _ _ _ Q1 P1) as [E _]. apply (inj (fmap Some)) in E. rewrite E in Q2.
  revert Q2. apply offsets_large; assumption.
Qed.

(** The rows of the threads. *)
Lemma binFor_chunks : 1 <= nt -> (N.of_nat (rows A + 1) < 2 ^ 17)%N -> wsum f (rows A) + nt <= W -> exists asg, chunks (b_off binFor) nt = Ok asg /\ schedule (rows A) asg /\ length asg = nt /\
  forall t its, asg !! t = Some its -> t < nt /\ its = seq (cutOf W f (rows A) nt t) (cutOf W f (rows A) nt (t + 1) - cutOf W f (rows A) nt t).
Proof.
  intros Hnt HN HW. destruct (cutOf_props W f (rows A) nt Hnt HN HW) as (C0 & Cn & Cr & Cm).
  eexists. split; [apply chunks_ok with (cut := cutOf W f (rows A) nt); intros t Ht; simpl; rewrite seq_at, decide_True by lia; reflexivity|].
  split; [apply chunks_schedule; assumption|]. split; [rewrite fmap_length, seq_length; reflexivity|].
  intros t its Ht. rewrite seq_at in Ht. destruct (decide (t < nt)); [|discriminate]. injection Ht as <-. auto.
Qed.
End Max.
