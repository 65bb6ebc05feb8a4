(** Proofs about BitModel. *)
From Verif Require Import BaseProofs BitModel BitSpec.
From Verif Require Import Base.

Lemma getI_Some {A} (l : list (option A)) i x : l !! i = Some (Some x) -> getI l i = Ok x.
Proof. intros H. unfold getI. rewrite H. reflexivity. Qed.
Lemma ready_lookup m i : ready m -> i < length m -> exists x, m !! i = Some (Some x) /\ (x < 2 ^ 64)%N.
Proof.
  intros H Hi. destruct (lookup_lt_is_Some_2 m i Hi) as [w Hw]. destruct (Forall_lookup_1 _ _ _ _ H Hw) as (x & -> & Hx). eauto.
Qed.
Lemma land_bit x k : negb (N.land x (N.shiftl 1 k) =? 0)%N = N.testbit x k.
Proof.
  assert (E : N.land x (N.shiftl 1 k) = if N.testbit x k then N.shiftl 1 k else 0%N).
  { apply N.bits_inj. intros j. rewrite N.land_spec. rewrite N.shiftl_1_l. destruct (N.eq_dec k j) as [->|Hne].
    - rewrite N.pow2_bits_true. destruct (N.testbit x j); [rewrite N.pow2_bits_true|rewrite N.bits_0]; reflexivity.
    - rewrite N.pow2_bits_false by exact Hne. rewrite andb_false_r. destruct (N.testbit x k); [rewrite N.pow2_bits_false by exact Hne|rewrite N.bits_0]; reflexivity. }
  rewrite E. destruct (N.testbit x k); [|reflexivity]. rewrite N.shiftl_1_l. assert (2 ^ k <> 0)%N by (apply N.pow_nonzero; lia).
  destruct (N.eqb_spec (2 ^ k) 0); [lia|reflexivity].
Qed.
Lemma bmGet_ok m p x : m !! (p / 64) = Some (Some x) -> bmGet m p = Ok (N.testbit x (N.of_nat (p mod 64))).
Proof. intros H. unfold bmGet. rewrite (getI_Some _ _ _ H). cbn [bind]. rewrite land_bit. reflexivity. Qed.
Lemma bmGet_isset m p : ready m -> p < 64 * length m -> exists b, bmGet m p = Ok b /\ (b = true <-> isset m p).
Proof.
  intros H Hp. destruct (ready_lookup m (p / 64) H) as (x & Hx & _); [apply Nat.div_lt_upper_bound; lia|].
  eexists. split; [apply bmGet_ok, Hx|]. split; [intros E; exists x; auto|]. intros (y & Hy & E). rewrite Hx in Hy. injection Hy as <-. exact E.
Qed.

Lemma bmReset_ok m : bmReset m = Ok (replicate (length m) (Some 0%N)).
Proof.
  unfold bmReset.
  destruct (for_inv (fun i (d : bitmap) => length d = length m /\ forall j, j < i -> d !! j = Some (Some 0%N))
    (fun i d => set_ d i (Some 0%N)) 0 (length m) m) as (s & -> & Hl & Hs).
  - lia.
  - split; [reflexivity|intros; lia].
  - intros i s Hi [Hl Hs]. rewrite set_Ok by lia. eexists. split; [reflexivity|]. split; [rewrite insert_length; exact Hl|].
    intros j Hj. destruct (decide (j = i)) as [->|]; [apply list_lookup_insert; lia|]. rewrite list_lookup_insert_ne by lia. apply Hs. lia.
  - f_equal. apply list_eq. intros j. destruct (Nat.lt_ge_cases j (length m)) as [Hj|Hj].
    + rewrite Hs, lookup_replicate_2 by exact Hj. reflexivity.
    + rewrite !lookup_ge_None_2 by (rewrite ?replicate_length; lia). reflexivity.
Qed.

Lemma pos_eq p q : p / 64 = q / 64 -> p mod 64 = q mod 64 -> p = q.
Proof. intros H1 H2. rewrite (Nat.div_mod_eq p 64), (Nat.div_mod_eq q 64), H1, H2. reflexivity. Qed.

Lemma bmSet_ok m p : ready m -> p < 64 * length m ->
  exists m', bmSet m p = Ok m' /\ ready m' /\ length m' = length m /\ forall q, q < 64 * length m -> (isset m' q <-> q = p \/ isset m q).
Proof.
  intros H Hp. assert (Hi : p / 64 < length m) by (apply Nat.div_lt_upper_bound; lia).
  destruct (ready_lookup m (p / 64) H Hi) as (x & Hx & Hx2). unfold bmSet. rewrite (getI_Some _ _ _ Hx). cbn [bind]. rewrite set_Ok by exact Hi.
  eexists. split; [reflexivity|]. set (y := N.lor x (N.shiftl 1 (N.of_nat (p mod 64)))).
  assert (Hm : p mod 64 < 64) by (apply Nat.mod_upper_bound; lia).
  split_and!.
  - apply Forall_insert; [exact H|]. exists y. split; [reflexivity|]. unfold y. destruct (N.eq_dec x 0) as [->|Hx0].
    + rewrite N.lor_0_l, N.shiftl_1_l. apply N.pow_lt_mono_r; lia.
    + apply N.log2_lt_pow2; [apply N.neq_0_lt_0; intros E; apply N.lor_eq_0_iff in E; tauto|].
      rewrite N.log2_lor, N.shiftl_1_l, N.log2_pow2 by lia. apply N.max_lub_lt; [apply N.log2_lt_pow2; lia|lia].
  - apply insert_length.
  - intros q Hq. unfold isset. destruct (decide (q / 64 = p / 64)) as [E|E].
    + rewrite E, list_lookup_insert by exact Hi. split.
      * intros (z & Hz & Ht). injection Hz as <-. unfold y in Ht. rewrite N.lor_spec, N.shiftl_1_l in Ht.
        destruct (N.eq_dec (N.of_nat (p mod 64)) (N.of_nat (q mod 64))) as [F|F].
        -- left. apply pos_eq; [exact E|lia].
        -- right. rewrite N.pow2_bits_false, orb_false_r in Ht by exact F. exists x. auto.
      * intros Hq2. exists y. split; [reflexivity|]. unfold y. rewrite N.lor_spec, N.shiftl_1_l. destruct Hq2 as [->|(z & Hz & Ht)].
        -- rewrite N.pow2_bits_true. apply orb_true_r.
        -- rewrite Hx in Hz. injection Hz as <-. rewrite Ht. reflexivity.
    + rewrite list_lookup_insert_ne by congruence. split; [tauto|]. intros [->|G]; [congruence|exact G].
Qed.

Lemma bmSets_ok m ps : ready m -> Forall (fun p => p < 64 * length m) ps ->
  exists m', foldM bmSet ps m = Ok m' /\ ready m' /\ length m' = length m /\ forall q, q < 64 * length m -> (isset m' q <-> q ∈ ps \/ isset m q).
Proof.
  revert m. induction ps as [|p ps IH]; intros m H Hf.
  - exists m. split; [reflexivity|]. split; [exact H|]. split; [reflexivity|]. intros q Hq. split; [tauto|]. intros [G|G]; [inversion G|exact G].
  - apply Forall_cons in Hf as [Hp Hf]. destruct (bmSet_ok m p H Hp) as (m1 & E1 & R1 & L1 & S1).
    destruct (IH m1 R1) as (m2 & E2 & R2 & L2 & S2); [rewrite L1; exact Hf|].
    exists m2. cbn [foldM]. rewrite E1. cbn [bind]. split; [exact E2|]. split; [exact R2|]. split; [congruence|].
    intros q Hq. rewrite S2 by lia. rewrite S1 by exact Hq. rewrite elem_of_cons. tauto.
Qed.

Lemma bmCopy_ok m : ready m -> bmClone m = Ok m.
Proof.
  intros H. unfold bmClone, bmCopy.
  destruct (for_inv (fun i (d : bitmap) => length d = length m /\ forall j, j < i -> d !! j = m !! j)
    (fun i d => x <- getI m i ;; set_ d i (Some x)) 0 (length m) (replicate (length m) None)) as (s & -> & Hl & Hs).
  - lia.
  - split; [apply replicate_length|intros; lia].
  - intros i s Hi [Hl Hs]. destruct (ready_lookup m i H ltac:(lia)) as (x & Hx & _). rewrite (getI_Some _ _ _ Hx). cbn [bind].
    rewrite set_Ok by lia. eexists. split; [reflexivity|]. split; [rewrite insert_length; exact Hl|].
    intros j Hj. destruct (decide (j = i)) as [->|]; [rewrite list_lookup_insert by lia; congruence|]. rewrite list_lookup_insert_ne by lia. apply Hs. lia.
  - f_equal. apply list_eq. intros j. destruct (Nat.lt_ge_cases j (length m)) as [Hj|Hj]; [apply Hs, Hj|]. rewrite !lookup_ge_None_2 by lia. reflexivity.
Qed.

(** The loops of get_next_bit. *)
Lemma bmBit_ok fuel temp next : (temp <> 0 -> temp < 2 ^ N.of_nat fuel -> next + N.log2 temp < 2 ^ 64 ->
  exists k, bmBit fuel temp next = Ok (next + k) /\ N.testbit temp k = true /\ (forall j, j < k -> N.testbit temp j = false) /\ k < N.of_nat fuel)%N.
Proof.
  revert temp next. induction fuel as [|fuel IH]; intros temp next H0 Hl Hn.
  - simpl in Hl. lia.
  - cbn [bmBit]. destruct (N.odd temp) eqn:Eo.
    + exists 0%N. rewrite N.add_0_r. split; [reflexivity|]. split; [rewrite N.bit0_odd; exact Eo|]. split; [intros; lia|lia].
    + assert (He : temp = (2 * N.shiftr temp 1)%N).
      { rewrite <- N.div2_spec. pose proof (N.div2_odd temp) as D. rewrite Eo in D. simpl N.b2n in D. lia. }
      assert (Hs : (N.shiftr temp 1 <> 0)%N) by lia.
      assert (Hlog : (N.log2 temp = N.log2 (N.shiftr temp 1) + 1)%N) by (rewrite He at 1; rewrite N.log2_double by lia; lia).
      rewrite N.mod_small by lia.
      destruct (IH (N.shiftr temp 1) (next + 1)%N Hs) as (k & Hk & Ht & Hj & Hkf).
      * rewrite Nat2N.inj_succ, N.pow_succ_r' in Hl. lia.
      * lia.
      * exists (k + 1)%N. split; [rewrite Hk; f_equal; lia|]. split; [rewrite <- Ht, N.shiftr_spec'; reflexivity|]. split; [|lia].
        intros j Hj'. destruct (N.eq_dec j 0) as [->|]; [rewrite N.bit0_odd; exact Eo|].
        replace j with ((j - 1) + 1)%N by lia. rewrite <- N.shiftr_spec'. apply Hj. lia.
Qed.

Lemma bmWord_ok m : ready m -> forall fuel it next, length m <= it + fuel -> (next + 64 * N.of_nat (length m - it) <= 2 ^ 64)%N ->
  (bmWord (S fuel) m it next = Ok None /\ forall j, it < j < length m -> m !! j = Some (Some 0%N)) \/
  exists j x, it < j < length m /\ m !! j = Some (Some x) /\ x <> 0%N /\ (x < 2 ^ 64)%N /\ (forall i, it < i < j -> m !! i = Some (Some 0%N)) /\
    bmWord (S fuel) m it next = Ok (Some (x, (next + 64 * N.of_nat (j - it))%N)).
Proof.
  intros H. induction fuel as [|fuel IH]; intros it next Hf Hn.
  - left. cbn [bmWord]. destruct (Nat.leb_spec (length m) (it + 1)); [|lia]. split; [reflexivity|intros; lia].
  - remember (S fuel) as f. cbn [bmWord]. subst f. destruct (Nat.leb_spec (length m) (it + 1)) as [Hle|Hlt].
    + left. split; [reflexivity|intros; lia].
    + destruct (ready_lookup m (it + 1) H ltac:(lia)) as (x & Hx & Hx2). rewrite (getI_Some _ _ _ Hx). cbn [bind].
      assert (Hm : ((next + 64) mod 2 ^ 64 = next + 64)%N).
      { apply N.mod_small. assert (2 <= length m - it) by lia. lia. }
      rewrite Hm. destruct (N.eqb_spec x 0) as [->|Hx0].
      * destruct (IH (it + 1) (next + 64)%N ltac:(lia)) as [[E G]|(j & y & Hj & Hy & Hy0 & Hy2 & Hz & E)].
        { replace (length m - it) with (S (length m - (it + 1))) in Hn by lia. rewrite Nat2N.inj_succ in Hn. lia. }
        -- left. split; [exact E|]. intros j Hj. destruct (decide (j = it + 1)) as [->|]; [exact Hx|apply G; lia].
        -- right. exists j, y. split_and!; try assumption; try lia.
           ++ intros i Hi. destruct (decide (i = it + 1)) as [->|]; [exact Hx|apply Hz; lia].
           ++ rewrite E. do 3 f_equal. replace (j - it) with (S (j - (it + 1))) by lia. rewrite Nat2N.inj_succ. lia.
      * right. exists (it + 1), x. split_and!; try assumption; try lia. do 3 f_equal. replace (it + 1 - it) with 1 by lia. lia.
Qed.

Lemma land_mask (x : N) : N.land x 0xffffffc0 = ((x / 64) mod 2 ^ 26 * 64)%N.
Proof.
  change 0xffffffc0%N with (N.shiftl (N.ones 26) 6).
  assert (E : N.land x (N.shiftl (N.ones 26) 6) = N.shiftl (N.land (N.shiftr x 6) (N.ones 26)) 6).
  { apply N.bits_inj. intros j. rewrite N.land_spec. destruct (N.lt_ge_cases j 6) as [Hj|Hj].
    - rewrite !N.shiftl_spec_low by exact Hj. apply andb_false_r.
    - rewrite !N.shiftl_spec_high' by exact Hj. rewrite N.land_spec, N.shiftr_spec'. do 2 f_equal. lia. }
  rewrite E, N.land_ones, N.shiftr_div_pow2, N.shiftl_mul_pow2. reflexivity.
Qed.

(** get_next_bit in full: exact in the word of [pos], and without the bits of [pos] from 2^32 on in a later word. *)
Lemma bmNext_ok m pos : ready m -> pos < 64 * length m -> (64 * N.of_nat (length m) <= 2 ^ 64)%N ->
  (bmNext m pos = Ok None /\ forall p, pos < p -> ~ isset m p) \/
  exists q, pos < q /\ isset m q /\ (forall p, pos < p < q -> ~ isset m p) /\
    bmNext m pos = Ok (Some (if q / 64 =? pos / 64 then N.of_nat q else (N.of_nat q - N.of_nat pos / 2 ^ 32 * 2 ^ 32)%N)).
Proof.
  intros H Hp HL. set (w := pos / 64). set (o := pos mod 64).
  assert (Ho : o < 64) by (apply Nat.mod_upper_bound; lia). assert (Epos : pos = 64 * w + o) by apply Nat.div_mod_eq.
  assert (Hw : w < length m) by (apply Nat.div_lt_upper_bound; lia).
  destruct (ready_lookup m w H Hw) as (x & Hx & Hx2).
  unfold bmNext. fold w o. rewrite (getI_Some _ _ _ Hx). cbn [bind].
  set (temp := if negb (o =? 63) then N.shiftr x (N.of_nat (o + 1)) else 0%N).
  assert (Htb : forall k, o + 1 + k < 64 -> N.testbit temp (N.of_nat k) = N.testbit x (N.of_nat (o + 1 + k))).
  { intros k Hk. unfold temp. destruct (Nat.eqb_spec o 63); [lia|]. cbn [negb]. rewrite N.shiftr_spec'. f_equal. lia. }
  assert (Hbit : forall p, p / 64 = w -> (isset m p <-> N.testbit x (N.of_nat (p mod 64)) = true)).
  { intros p Ep. unfold isset. rewrite Ep. split; [intros (y & Hy & Ht); rewrite Hx in Hy; injection Hy as <-; exact Ht|intros Ht; exists x; auto]. }
  destruct (N.eqb_spec temp 0) as [Et|Et].
  - (* nothing more in this word *)
    assert (Hnone : forall p, pos < p -> p / 64 = w -> ~ isset m p).
    { intros p Hpp Ep G. apply (Hbit p Ep) in G. assert (Hpm : p mod 64 < 64) by (apply Nat.mod_upper_bound; lia).
      pose proof (Nat.div_mod_eq p 64) as Dp. rewrite Ep in Dp. specialize (Htb (p mod 64 - (o + 1)) ltac:(lia)).
      replace (o + 1 + (p mod 64 - (o + 1))) with (p mod 64) in Htb by lia. rewrite Et, N.bits_0 in Htb. congruence. }
    rewrite land_mask, Nat.add_1_r.
    destruct (bmWord_ok m H (length m) w ((N.of_nat pos / 64) mod 2 ^ 26 * 64)%N) as [[E G]|(j & y & Hj & Hy & Hy0 & Hy2 & Hz & E)].
    + lia.
    + assert (Hdw : (N.of_nat pos / 64 = N.of_nat w)%N) by (unfold w; rewrite Nat2N.inj_div; reflexivity). rewrite Hdw.
      pose proof (N.mod_le (N.of_nat w) (2 ^ 26) ltac:(lia)). rewrite Nat2N.inj_sub. lia.
    + left. rewrite E. cbn [bind]. split; [reflexivity|]. intros p Hpp. destruct (decide (p / 64 = w)) as [Ep|Ep]; [apply Hnone; assumption|].
      intros (y & Hy & Ht). assert (w <= p / 64) by (apply Nat.div_le_mono; lia).
      rewrite G in Hy by (apply lookup_lt_Some in Hy; lia). injection Hy as <-. rewrite N.bits_0 in Ht. discriminate.
    + right. rewrite E. cbn [bind].
      assert (Hdw : (N.of_nat pos / 64 = N.of_nat w)%N) by (unfold w; rewrite Nat2N.inj_div; reflexivity). rewrite Hdw.
      assert (Hlog : (N.log2 y < 64)%N) by (apply N.log2_lt_pow2; lia).
      pose proof (N.mod_le (N.of_nat w) (2 ^ 26) ltac:(lia)) as Hml.
      destruct (bmBit_ok 64 y (N.of_nat w mod 2 ^ 26 * 64 + 64 * N.of_nat (j - w))%N Hy0 ltac:(exact Hy2)) as (k & Hk & Ht & Hlow & Hkf).
      { rewrite Nat2N.inj_sub. lia. }
      exists (64 * j + N.to_nat k).
      assert (Dq : (64 * j + N.to_nat k) / 64 = j) by (symmetry; apply (Nat.div_unique _ 64 j (N.to_nat k)); lia).
      assert (Mq : (64 * j + N.to_nat k) mod 64 = N.to_nat k) by (symmetry; apply (Nat.mod_unique _ 64 j (N.to_nat k)); lia).
      split; [lia|]. split; [exists y; rewrite Dq, Mq, N2Nat.id; auto|]. split.
      * intros p Hpp. destruct (decide (p / 64 = w)) as [Ep|Ep]; [apply Hnone; [lia|exact Ep]|].
        assert (w <= p / 64) by (apply Nat.div_le_mono; lia). assert (p / 64 <= j) by (rewrite <- Dq; apply Nat.div_le_mono; lia).
        intros (z & Hz2 & Htz). destruct (decide (p / 64 = j)) as [Ej|Ej].
        -- rewrite Ej, Hy in Hz2. injection Hz2 as <-. rewrite Hlow in Htz; [discriminate|]. pose proof (Nat.div_mod_eq p 64). lia.
        -- rewrite Hz in Hz2 by lia. injection Hz2 as <-. rewrite N.bits_0 in Htz. discriminate.
      * rewrite Dq. destruct (Nat.eqb_spec j w) as [|_]; [lia|]. rewrite Hk. cbn [bind]. do 2 f_equal.
        assert (Hdd : (N.of_nat pos / 2 ^ 32 = N.of_nat w / 2 ^ 26)%N).
        { rewrite <- Hdw, N.div_div by lia. reflexivity. }
        rewrite Hdd. pose proof (N.div_mod (N.of_nat w) (2 ^ 26) ltac:(lia)) as Dw.
        change (2 ^ 32)%N with (2 ^ 26 * 64)%N. rewrite Nat2N.inj_sub. lia.
  - (* in this word *)
    right. cbn [bind].
    assert (Ho63 : o <> 63) by (unfold temp in Et; destruct (Nat.eqb_spec o 63); [cbn in Et; congruence|assumption]).
    assert (Htl : (temp < 2 ^ 64)%N).
    { unfold temp. destruct (negb (o =? 63)); [|lia]. rewrite N.shiftr_div_pow2. eapply N.le_lt_trans; [apply N.div_le_upper_bound; [apply N.pow_nonzero; lia|]|exact Hx2].
      assert (1 <= 2 ^ N.of_nat (o + 1))%N by (apply N.neq_0_lt_0 in Et; assert (2 ^ N.of_nat (o + 1) <> 0)%N by (apply N.pow_nonzero; lia); lia). nia. }
    assert (Hlog : (N.log2 temp + N.of_nat (o + 1) < 64)%N).
    { assert (Hlx : (N.log2 x < 64)%N).
      { apply N.log2_lt_pow2; [|exact Hx2]. apply N.neq_0_lt_0. intros ->. apply Et. unfold temp. destruct (negb (o =? 63)); [apply N.shiftr_0_l|reflexivity]. }
      assert (Hb : N.testbit x (N.log2 temp + N.of_nat (o + 1)) = true).
      { rewrite <- N.shiftr_spec'. assert (E : temp = N.shiftr x (N.of_nat (o + 1))) by (unfold temp; destruct (Nat.eqb_spec o 63); [congruence|reflexivity]). rewrite <- E. apply N.bit_log2, Et. }
      destruct (N.lt_ge_cases (N.log2 temp + N.of_nat (o + 1)) 64) as [|Hge]; [assumption|]. rewrite N.bits_above_log2 in Hb by lia. discriminate. }
    assert (Hn1 : ((N.of_nat pos + 1) mod 2 ^ 64 = N.of_nat pos + 1)%N) by (apply N.mod_small; lia). rewrite Hn1.
    destruct (bmBit_ok 64 temp (N.of_nat pos + 1)%N Et ltac:(exact Htl)) as (k & Hk & Ht & Hlow & Hkf); [lia|].
    assert (Hkl : (k <= N.log2 temp)%N).
    { destruct (N.le_gt_cases k (N.log2 temp)) as [|Hgt]; [assumption|]. rewrite N.bits_above_log2 in Ht by exact Hgt. discriminate. }
    exists (pos + 1 + N.to_nat k).
    assert (Eq : pos + 1 + N.to_nat k = 64 * w + (o + 1 + N.to_nat k)) by lia.
    assert (Dq : (pos + 1 + N.to_nat k) / 64 = w) by (symmetry; apply (Nat.div_unique _ 64 w (o + 1 + N.to_nat k)); lia).
    assert (Mq : (pos + 1 + N.to_nat k) mod 64 = o + 1 + N.to_nat k) by (symmetry; apply (Nat.mod_unique _ 64 w (o + 1 + N.to_nat k)); lia).
    split; [lia|]. split; [apply Hbit; [exact Dq|]; rewrite Mq, <- Htb by lia; rewrite N2Nat.id; exact Ht|]. split.
    + intros p Hpp. assert (Ep : p / 64 = w).
      { apply Nat.le_antisymm; [rewrite <- Dq; apply Nat.div_le_mono; lia|apply Nat.div_le_mono; lia]. }
      rewrite (Hbit p Ep). pose proof (Nat.div_mod_eq p 64) as Dp. rewrite Ep in Dp.
      specialize (Htb (p mod 64 - (o + 1)) ltac:(lia)). replace (o + 1 + (p mod 64 - (o + 1))) with (p mod 64) in Htb by lia.
      rewrite <- Htb, Hlow by lia. discriminate.
    + rewrite Dq, Nat.eqb_refl, Hk. cbn [bind]. do 2 f_equal. lia.
Qed.
