(** C43: BIN.h, the split of the rows over the threads.  Words used: [touched_cols] (Spec: one column per
    product of the row), [set_max_bin_ends] (BinModel: constructor and set_max_bin always end, for every
    distribution and interleaving, with these arrays). *)
From stdpp Require Import numbers.
From Verif Require Import BinModel BaseProofs ScanProofs LegacyScanProofs WorkProofs IsectProofs BinProofs Examples.
From Verif Require Import Base Spec.

Lemma nprods_touched {V} (A B : csr V) i : nprods A B i = length (touched_cols A B i).
Proof. rewrite nprods_row_prods, <- row_prods_cols, fmap_length. reflexivity. Qed.
Lemma touched_no_cols {V} (A B : csr V) i : wf B -> cols B = 0 -> nprods A B i = 0.
Proof.
  intros HB Hz. rewrite nprods_row_prods. destruct (row_prods A B i) as [|[[c a] b] l] eqn:E; [reflexivity|].
  pose proof (row_prods_range A B i c a b HB) as H. rewrite E in H. specialize (H ltac:(left)). lia.
Qed.

(** C43.  For fewer than 2^17 - 1 rows and counts that fit the index type: set_max_bin always ends, with one and
    the same result.  It counts the products of every row and their sum; the ranges of rows are consecutive
    and cover all rows; no thread gets more than its average share plus the largest row; bin 0 are the rows
    without products, and bin k > 0 is the least k with min(products, columns) <= min << (k-1); the hash table of a
    thread is large enough for the bins of all its rows. *)
Theorem C43_bins_partial :
  forall V W top nts nt min (A B : csr V), wf A -> wf B -> cols A = rows B -> rows A <> 0 -> 1 <= nt ->
  let work i := length (touched_cols A B i) in
  let total := sum_list (work <$> seq 0 (rows A)) in
  (N.of_nat (rows A + 1) < 2 ^ 17)%N -> total + nt <= W -> 1 <= min -> min < W ->
  (forall i, i < rows A -> 2 * Nat.min (work i) (cols B) <= W) ->
  exists b,
    set_max_bin_ends W top nts nt min (rowptr A) (colids A) (rowptr B) (rows A) (cols B) b /\
    (forall b', set_max_bin_ends W top nts nt min (rowptr A) (colids A) (rowptr B) (rows A) (cols B) b' -> b' = b) /\
    b_nz b = work <$> seq 0 (rows A) /\ b_total b = total /\
    (length (b_off b) = nt + 1 /\ b_off b !! 0 = Some 0 /\ b_off b !! nt = Some (rows A)) /\
    (forall t lo hi, b_off b !! t = Some lo -> b_off b !! (t + 1) = Some hi ->
       lo <= hi <= rows A /\
       (forall mx, (forall i, i < rows A -> work i <= mx) -> sum_list (work <$> seq lo (hi - lo)) <= (total + nt - 1) / nt + mx) /\
       exists sz, localSize W (b_nz b) (b_off b) min (cols B) t = Ok sz /\
         forall i k, lo <= i < hi -> b_id b !! i = Some k -> 1 <= k -> min * 2 ^ (k - 1) <= sz) /\
    length (b_id b) = rows A /\
    (forall i k, b_id b !! i = Some k ->
       (k = 0 <-> Nat.min (work i) (cols B) = 0) /\
       (1 <= k -> Nat.min (work i) (cols B) <= min * 2 ^ (k - 1)) /\
       (2 <= k -> min * 2 ^ (k - 2) < Nat.min (work i) (cols B))).
Proof.
  intros V W top nts nt min A B HA HB Hc H0 Hnt work total HN HW Hm HmW Hf.
  assert (Ew : forall i, nprods A B i = work i) by (intros i; apply nprods_touched).
  assert (El : forall lo k, nprods A B <$> seq lo k = work <$> seq lo k) by (intros lo k; apply list_fmap_ext; intros _ i _; apply Ew).
  assert (Et : wsum (nprods A B) (rows A) = total) by (unfold wsum, total; rewrite El; reflexivity).
  assert (HW' : wsum (nprods A B) (rows A) + nt <= W) by (rewrite Et; exact HW).
  assert (Hf' : forall i, i < rows A -> 2 * Nat.min (nprods A B i) (cols B) <= W) by (intros i Hi; rewrite Ew; apply Hf, Hi).
  destruct (set_max_bin_ok W top A B nts nt min HA HB Hc H0 Hnt HN HW' Hm HmW Hf') as [P U].
  destruct (cutOf_props W (nprods A B) (rows A) nt Hnt HN HW') as (C0 & Cn & Cr & Cm).
  exists (binFor W A B nt min). split; [exact P|]. split; [exact U|].
  cbn [b_nz b_total b_off b_id binFor]. split; [apply El|]. split; [exact Et|].
  split; [split; [rewrite fmap_length, seq_length; reflexivity|split; rewrite seq_at, decide_True by lia; [rewrite C0|rewrite Cn]; reflexivity]|].
  assert (Hid : forall i k, idOf W (nprods A B) (rows A) (cols B) min <$> seq 0 (rows A) = idOf W (nprods A B) (rows A) (cols B) min <$> seq 0 (rows A) ->
    (idOf W (nprods A B) (rows A) (cols B) min <$> seq 0 (rows A)) !! i = Some k -> i < rows A /\ binOf min (Nat.min (nprods A B i) (cols B)) k).
  { intros i k _ Hk. rewrite seq_at in Hk. destruct (decide (i < rows A)) as [Hi|]; [|discriminate]. injection Hk as <-. split; [exact Hi|].
    apply (idOf_ok W (nprods A B) (rows A) (cols B) min Hm HmW Hf' i Hi). }
  split; [|split; [rewrite fmap_length, seq_length; reflexivity|]].
  - intros t lo hi Hlo Hhi.
    assert (Ht : t < nt) by (apply lookup_lt_Some in Hhi; rewrite fmap_length, seq_length in Hhi; lia).
    pose proof Hlo as Hlo'. pose proof Hhi as Hhi'. rewrite seq_at, decide_True in Hlo' by lia. rewrite seq_at, decide_True in Hhi' by lia. injection Hlo' as <-. injection Hhi' as <-.
    pose proof (Cm t Ht). pose proof (Cr (t + 1) ltac:(lia)). split; [lia|]. split.
    + intros mx Hmx. pose proof (cutOf_balance W (nprods A B) (rows A) nt Hnt HN HW' t mx Ht ltac:(intros i Hi; rewrite Ew; apply Hmx, Hi)) as Hb.
      rewrite avg_eq, Et in Hb by assumption. rewrite <- El.
      assert (E : wsum (nprods A B) (cutOf W (nprods A B) (rows A) nt (t + 1)) = wsum (nprods A B) (cutOf W (nprods A B) (rows A) nt t) +
        sum_list (nprods A B <$> seq (cutOf W (nprods A B) (rows A) nt t) (cutOf W (nprods A B) (rows A) nt (t + 1) - cutOf W (nprods A B) (rows A) nt t))).
      { set (x := cutOf W (nprods A B) (rows A) nt t) in *. set (y := cutOf W (nprods A B) (rows A) nt (t + 1)) in *. unfold wsum.
        replace y with (x + (y - x)) at 1 by lia. rewrite seq_app, fmap_app, sum_list_app. reflexivity. }
      lia.
    + destruct (localSize_ok W (nprods A B) (rows A) min (cols B) _ t _ _ Hm HmW Hlo Hhi ltac:(lia) Hf') as (sz & E & Hsz & _).
      { intros Hz i _. apply touched_no_cols; assumption. }
      exists sz. split; [exact E|]. intros i k Hi Hk Hk1. apply Hid in Hk as [_ Hk]; [|reflexivity]. eapply Hsz; eassumption.
  - intros i k Hk. apply Hid in Hk as [Hi Hk]; [|reflexivity]. rewrite Ew in Hk. unfold binOf in Hk.
    destruct (Nat.eqb_spec (Nat.min (work i) (cols B)) 0) as [E|E].
    + subst k. split; [tauto|]. split; lia.
    + destruct Hk as (j & -> & Hj1 & Hj2). rewrite Nat.add_sub. split; [lia|]. split; [intros _; exact Hj1|]. intros H. apply Hj2. lia.
Qed.
Print Assumptions C43_bins_partial.

(** The two parallel loops that write rows_offset and bin_id cannot make threads conflict. *)
Theorem C43_race_free :
  forall V W nt min (A B : csr V) off id, 1 <= nt -> length off = nt + 1 -> off !! 0 = Some 0 -> length id = rows A ->
  let work i := length (touched_cols A B i) in
  let total := sum_list (work <$> seq 0 (rows A)) in
  (N.of_nat (rows A + 1) < 2 ^ 17)%N -> total + nt <= W -> 1 <= min -> min < W ->
  (forall i, i < rows A -> 2 * Nat.min (work i) (cols B) <= W) ->
  parfor_race_free (offBody W ((fun i => sum_list (work <$> seq 0 i)) <$> seq 0 (rows A + 1)) (rows A) (averageW W total nt)) nt (cells bOff off) /\
  parfor_race_free (binBody W (work <$> seq 0 (rows A)) (cols B) min) (rows A) (cells bId id).
Proof.
  intros V W nt min A B off id Hnt Ho Ho0 Hid work total HN HW Hm HmW Hf. split.
  - destruct (off_region W work (rows A) nt Hnt HN HW off Ho Ho0) as [_ H]. exact H.
  - destruct (bin_region W work (rows A) (cols B) min Hm HmW Hf id Hid) as [_ H]. exact H.
Qed.
Print Assumptions C43_race_free.

(** Finding: from 2^17 - 1 rows on the prefix sum of the counts reads past row_nz: there is no well-defined
    result, for any pair of matrices. *)
Theorem C43_large_refuted :
  forall V W top nts nt min (A B : csr V), wf A -> wf B -> cols A = rows B ->
  (2 ^ 17 <= N.of_nat (rows A + 1))%N -> 1 <= nts <= rows A + 1 ->
  ~ (exists b, set_max_bin_ends W top nts nt min (rowptr A) (colids A) (rowptr B) (rows A) (cols B) b).
Proof. intros V W top nts nt min A B HA HB Hc HN Hn [b H]. revert H. apply set_max_bin_large; assumption. Qed.
Print Assumptions C43_large_refuted.

(** Finding: a row whose min(products, columns) exceeds half the range of the index type keeps set_bin_id in its
    while loop for ever: [min << j] is never large enough. *)
Theorem C43_bin_loop_refuted :
  forall w a n, 2 ^ (w - 1) < n -> forall fuel, binLoop (2 ^ w) fuel (2 ^ a) n 0 = Err OutOfFuel.
Proof. intros w a n Hn fuel. exact (binLoop_diverges (2 ^ w) w a n fuel 0 eq_refl Hn). Qed.
Print Assumptions C43_bin_loop_refuted.

(** Three rows with 5, 0 and 4 products over two threads: rows 0 and 1, 2. *)
Example C43_example :
  (exists b, set_max_bin_ends 64 255 1 2 2 (rowptr exA) (colids exA) (rowptr exB) 3 4 b /\ b = mkBin [5; 0; 4] 9 [0; 1; 3] [2; 0; 2]) /\
  localSize 64 [5; 0; 4] [0; 1; 3] 2 4 0 = Ok 4 /\ localSize 64 [5; 0; 4] [0; 1; 3] 2 4 1 = Ok 4.
Proof.
  split; [|split; reflexivity].
  destruct (set_max_bin_ok 64 255 exA exB 1 2 2 exA_wf exB_wf eq_refl ltac:(discriminate) ltac:(lia) eq_refl) as [P _].
  - apply (bool_decide_unpack _). vm_compute. exact I.
  - lia.
  - lia.
  - intros i Hi. cbn in Hi. do 3 (destruct i as [|i]; [apply (bool_decide_unpack _); vm_compute; exact I|]). lia.
  - eexists. split; [exact P|]. vm_compute. reflexivity.
Qed.
(** An 8-bit index, minimal size 8, 200 products in 200 columns or more. *)
Example C43_bin_loop_example : 2 ^ (8 - 1) < 200 /\ forall fuel, binLoop (2 ^ 8) fuel (2 ^ 3) 200 0 = Err OutOfFuel.
Proof. split; [apply Nat.ltb_lt; reflexivity|]. apply C43_bin_loop_refuted. apply Nat.ltb_lt. reflexivity. Qed.
Example C43_large_example : exists A : csr Z, wf A /\ cols A = rows A /\
  ~ (exists b, set_max_bin_ends 64 255 4 4 8 (rowptr A) (colids A) (rowptr A) (rows A) (cols A) b).
Proof.
  set (n := N.to_nat (2 ^ 17)). exists (mkCsr n n 0 (replicate (n + 1) 0) [] []).
  assert (Hw : wf (mkCsr (V := Z) n n 0 (replicate (n + 1) 0) [] [])).
  { constructor; cbn [rowptr rows cols nnz colids values].
    - apply replicate_length.
    - rewrite lookup_replicate_2 by lia. reflexivity.
    - intros i a b Ha Hb. apply lookup_replicate in Ha as [-> _]. apply lookup_replicate in Hb as [-> _]. lia.
    - rewrite lookup_replicate_2 by lia. reflexivity.
    - reflexivity.
    - reflexivity.
    - intros p c Hp. discriminate. }
  split; [exact Hw|]. split; [reflexivity|].
  apply C43_large_refuted; try exact Hw; try reflexivity; cbn [rows]; unfold n; change (2 ^ 17)%N with 131072%N; lia.
Qed.
