(** C67: OuterSpGEMM of outer_mult2.h.  Words used: [Outer2_outcome] (Outer2Model: what a call may result in, over all interleavings; faults,
    data races and runs without an end are outcomes [Err _]); [outer_args], [outer_objs], [outer_right], [outerProducts] (PropOuter: conditions on the
    arguments and objects; the call ends with A*B in the place of C and every other object as before); [row_entries], [col_entries], [wf],
    [wf_csc], [prod_entry], [same_matrix] (Spec). *)
From stdpp Require Import numbers list_numbers.
From Coq Require Import NArith.
From Verif Require Import BaseProofs ParModel ParProofs ConcProofs ScanProofs Assemble SortProofs RadixProofs HeapStatements DriverBase IsectProofs OuterModel OuterProofs Outer2Model Outer2Proofs PropOuter.
From Verif Require Import Base Spec.

(** The number of products, in row [i] of A*B and in all. *)
Definition rowProducts {V} (A : csc V) (B : csr V) (i : nat) : nat :=
  sum_list ((fun k => length (filter (fun ra => fst ra = i) (col_entries A k)) * length (row_entries B k)) <$> seq 0 (c_cols A)).
Definition allProducts {V} (A : csc V) (B : csr V) : nat :=
  sum_list ((fun k => length (col_entries A k) * length (row_entries B k)) <$> seq 0 (c_cols A)).

(** Conditions on the sizes: A is square and has rows, an int counts the products, an average block and one row more have less than 2^27 of them, and rows
    with products and all columns are below 2^16. *)
Record outer2_sizes {V} (A : csc V) (B : csr V) (nb : nat) : Prop := {
  o2_square : c_rows A = c_cols A;
  o2_rows : 1 <= c_rows A;
  o2_all : (N.of_nat (allProducts A B) < 2 ^ 31)%N;
  o2_block : forall i, i < c_rows A -> (N.of_nat (allProducts A B / nb + rowProducts A B i) < 2 ^ 27)%N;
  o2_row : forall i, 1 <= rowProducts A B i -> (N.of_nat i < 2 ^ 16)%N;
  o2_cols : (N.of_nat (cols B) <= 2 ^ 16)%N }.

Section St.
Context {V : Type} (mul add : V -> V -> V) (A : csc V) (B : csr V).
Notation T := (prods mul A B).

Lemma rowP_products i : rowP mul A B i = rowProducts A B i.
Proof.
  unfold rowP, prods, colsTriples, rowProducts. induction (seq 0 (c_cols A)) as [|k l IH]; [reflexivity|]. rewrite !fmap_cons, mjoin_cons, ofBlk_app, app_length, IH. cbn [sum_list]. f_equal.
  unfold colTriples. induction (col_entries A k) as [|ra e IHe]; [reflexivity|]. rewrite fmap_cons, mjoin_cons, ofBlk_app, app_length, IHe, ofBlk_ent, filter_cons.
  destruct (Nat.eqb_spec (fst ra) i) as [E|E]; [rewrite decide_True by exact E|rewrite decide_False by exact E]; [|reflexivity].
  cbn [length]. unfold entTriples. rewrite fmap_length. unfold id. lia.
Qed.
Lemma prods_all : length T = allProducts A B.
Proof.
  unfold prods, colsTriples, allProducts. induction (seq 0 (c_cols A)) as [|k l IH]; [reflexivity|]. rewrite !fmap_cons, mjoin_cons, app_length, IH. cbn [sum_list]. unfold id. f_equal.
  unfold colTriples. induction (col_entries A k) as [|ra e IHe]; [reflexivity|]. rewrite fmap_cons, mjoin_cons, app_length, IHe. unfold entTriples. rewrite fmap_length. reflexivity.
Qed.
Lemma row_in_block blk r (L : list (nat * nat * V)) : length (ofBlk (fun x => x) r L) <= length (ofBlk blk (blk r) L).
Proof.
  unfold ofBlk. induction L as [|x L IH]; [reflexivity|]. rewrite !filter_cons. destruct (decide (x.1.1 = r)) as [E|E].
  - rewrite decide_True by congruence. cbn [length]. lia.
  - destruct (decide _); cbn [length]; lia.
Qed.
Lemma prods_row x : x ∈ T -> 1 <= rowProducts A B x.1.1.
Proof.
  intros Hx. rewrite <- rowP_products. unfold rowP, ofBlk. assert (H : x ∈ filter (fun y : nat * nat * V => y.1.1 = x.1.1) T) by (apply elem_of_list_filter; auto).
  destruct (filter _ _); [inversion H|cbn; lia].
Qed.

(** What the symbolic phase yields. *)
Lemma sym_ready nb bw nth : outer_args A B nb bw nth -> outer2_sizes A B nb -> exists rtb offs blk,
  doSymbolic A B nb nth = Ok (rtb, offs, counts blk nb T) /\ offsOk (c_rows A) nth offs /\ (forall r, r < c_rows A -> rtb !! r = Some (Some (blk r))) /\
  (forall r, r < c_rows A -> blk r < nb) /\ (forall r r', r <= r' -> blk r <= blk r') /\ (forall b, b < nb -> (N.of_nat (length (ofBlk blk b T)) < 2 ^ 27)%N) /\
  forall b g, b < nb -> g ≡ₚ ofBlk blk b T -> keyOk key16 g.
Proof.
  intros [HA HB Hin [N1 N2] [W1 W2] HL Hnth] [Q1 Q2 Q3 Q4 Q5 Q6].
  assert (HM : exists r, r < c_rows A /\ forall r', r' < c_rows A -> rowP mul A B r' <= rowP mul A B r).
  { clear -Q2. induction (c_rows A) as [|n IH]; [lia|]. destruct n as [|n]; [exists 0; split; [lia|]; intros r' Hr; replace r' with 0 by lia; lia|].
    destruct IH as (r & Hr & H); [lia|]. destruct (Nat.le_gt_cases (rowP mul A B (S n)) (rowP mul A B r)) as [L|L].
    - exists r. split; [lia|]. intros r' Hr'. destruct (decide (r' = S n)) as [->|]; [exact L|apply H; lia].
    - exists (S n). split; [lia|]. intros r' Hr'. destruct (decide (r' = S n)) as [->|]; [lia|]. specialize (H r' ltac:(lia)). lia. }
  destruct HM as (r0 & Hr0 & HM).
  destruct (doSymbolic_ok mul A B nb nth (rowP mul A B r0) HA HB Hin N1 Hnth Q2 ltac:(lia) ltac:(rewrite prods_all; exact Q3) HM) as (rtb & offs & blk & E & Ho & H1 & H2 & H3 & H4).
  exists rtb, offs, blk. do 5 (split; [assumption|]). split.
  - intros b Hb. specialize (H4 b Hb). specialize (Q4 r0 Hr0). rewrite prods_all, rowP_products in H4. lia.
  - intros b g Hb Hg. apply key16_ok. intros x Hx. rewrite Hg in Hx. apply elem_of_list_filter in Hx as [_ Hx]. split; [apply Q5, prods_row, Hx|].
    destruct (prods_range mul A B HA HB x Hx) as [_ Hc]. lia.
Qed.
End St.

(** C67.  Whatever the interleaving, the call ends with A*B, within these sizes and as long as A has fewer than 2^17 - 1 rows. *)
Theorem C67_outer2_partial :
  forall V (mul add : V -> V -> V) (A : csc V) (B : csr V) (nb bw nth top nts iA iB iC : nat) (s : gmap nat (obj V)),
  outer_args A B nb bw nth -> outer2_sizes A B nb -> (N.of_nat (c_rows A + 1) < 2 ^ 17)%N -> outer_objs A B iA iB iC s -> (iC = iB -> nnz B <> 0) ->
  (exists o, Outer2_outcome mul add top nts nth iA iB iC nb bw s o) /\
  forall o, Outer2_outcome mul add top nts nth iA iB iC nb bw s o -> outer_right mul add A B iC s o.
Proof.
  intros V mul add A B nb bw nth top nts iA iB iC s Ha Hz HN (EA & EB & C0 & EC) Hal.
  destruct (sym_ready mul A B nb bw nth Ha Hz) as (rtb & offs & blk & ES & Ho & Hrtb & Hblk & Hmono & Hfl & Hkey).
  destruct Ha as [HA HB Hin [N1 N2] [W1 W2] HL Hnth].
  destruct (resetCsr_ok A B iA iB iC s C0 EA EB EC Hal) as (s1 & lost & Hreset & Hs1).
  destruct (outer2_end mul add A B HA HB Hin nb bw nth N1 N2 W1 W2 Hnth top nts iA iB iC s EA EB (o2_square _ _ _ Hz) rtb offs blk ES Ho Hrtb Hblk HL Hfl Hmono Hkey s1 (cols B) lost Hreset) as (mx & HU & Ms & HM & HE).
  pose proof (fun l0 Ms o => end_ok mul add A B HA HB Hin (blockId2 rtb) blk top nts iC s1 (cols B) lost l0 Ms o HN) as Hend.
  split.
  - eexists. apply HE. apply Hend; [exact HM|reflexivity].
  - intros o Hout. destruct (HU o Hout) as (Ms' & HM' & Ho'). apply Hend in Ho'; [|exact HM']. rewrite Ho'. apply merged_right; assumption.
Qed.
Print Assumptions C67_outer2_partial.

(** All interleavings end with the same C if addition is commutative and associative, and it is the product of the matrices; A' is A by rows. *)
Theorem C67_same_product_partial :
  forall V (mul add : V -> V -> V) (A : csc V) (B A' : csr V) (nb bw nth top nts iA iB iC : nat) (s : gmap nat (obj V)),
  outer_args A B nb bw nth -> outer2_sizes A B nb -> (N.of_nat (c_rows A + 1) < 2 ^ 17)%N -> outer_objs A B iA iB iC s -> (iC = iB -> nnz B <> 0) ->
  (forall a b, add a b = add b a) -> (forall a b c, add a (add b c) = add (add a b) c) ->
  wf A' -> same_matrix A' A -> distinct_rows A' -> (forall k, k < c_cols A -> NoDup (fst <$> col_entries A k)) ->
  exists C, wf C /\ rows C = rows A' /\ cols C = cols B /\ sorted_rows C /\
    (forall i j v, i < rows A' -> ((j, v) ∈ row_entries C i <-> prod_entry mul add A' B i j = Some v)) /\
    forall o, Outer2_outcome mul add top nts nth iA iB iC nb bw s o -> exists lost, o = Ok (<[iC := OMat C]> s, lost).
Proof.
  intros V mul add A B A' nb bw nth top nts iA iB iC s Ha Hs HN Ho Hal Hc Has HA' S DA DC.
  destruct (C67_outer2_partial V mul add A B nb bw nth top nts iA iB iC s Ha Hs HN Ho Hal) as [(o0 & H0) HU].
  destruct (HU o0 H0) as (C & lost & -> & HC). exists C.
  destruct (right_product mul add A B A' C Hc Has HA' S DA DC HC) as (W & R1 & R2 & R3 & R4 & R5). do 5 (split; [assumption|]).
  intros o Ho'. destruct (HU o Ho') as (C' & lost' & -> & HC'). exists lost'. do 4 f_equal. exact (R5 C' HC').
Qed.
Print Assumptions C67_same_product_partial.

(** *** Findings *)
(** A is not square.  With fewer rows than columns flops_by_iters (57) is too short; with more, columns are handed to the threads that A does not have. *)
Theorem C67_not_square_refuted :
  forall V (mul add : V -> V -> V) (A : csc V) (B : csr V) (nb bw nth top nts iA iB iC : nat) (s : gmap nat (obj V)),
  outer_args A B nb bw nth -> c_rows A <> c_cols A -> s !! iA = Some (OCsc A) -> s !! iB = Some (OMat B) ->
  (exists o, Outer2_outcome mul add top nts nth iA iB iC nb bw s o) /\
  forall o, Outer2_outcome mul add top nts nth iA iB iC nb bw s o -> exists f, o = Err f.
Proof.
  intros V mul add A B nb bw nth top nts iA iB iC s [HA HB Hin [N1 N2] [W1 W2] HL Hnth] Hne EA EB. apply outer2_not_square with A B; assumption.
Qed.
Print Assumptions C67_not_square_refuted.

(** A has neither rows nor columns: rows_to_blockers[0] (78) does not exist. *)
Theorem C67_no_rows_refuted :
  forall V (mul add : V -> V -> V) (A : csc V) (B : csr V) (nb bw nth top nts iA iB iC : nat) (s : gmap nat (obj V)),
  outer_args A B nb bw nth -> c_rows A = 0 -> c_cols A = 0 -> s !! iA = Some (OCsc A) -> s !! iB = Some (OMat B) ->
  forall o, Outer2_outcome mul add top nts nth iA iB iC nb bw s o <-> o = Err OutOfBounds.
Proof.
  intros V mul add A B nb bw nth top nts iA iB iC s [HA HB Hin [N1 N2] [W1 W2] HL Hnth] H0 H1 EA EB o.
  apply (outer2_err mul add A B nb bw nth N2 W2 top nts iA iB iC s EA EB OutOfBounds o). apply doSymbolic_empty; assumption.
Qed.
Print Assumptions C67_no_rows_refuted.

(** 2^31 products or more: total_flops (73), an int, overflows. *)
Theorem C67_many_products_refuted :
  forall V (mul add : V -> V -> V) (A : csc V) (B : csr V) (nb bw nth top nts iA iB iC : nat) (s : gmap nat (obj V)),
  outer_args A B nb bw nth -> (2 ^ 31 <= N.of_nat (allProducts A B))%N -> c_rows A = c_cols A -> s !! iA = Some (OCsc A) -> s !! iB = Some (OMat B) ->
  forall o, Outer2_outcome mul add top nts nth iA iB iC nb bw s o <-> o = Err OutOfBounds.
Proof.
  intros V mul add A B nb bw nth top nts iA iB iC s [HA HB Hin [N1 N2] [W1 W2] HL Hnth] Hm Hq EA EB o.
  apply (outer2_err mul add A B nb bw nth N2 W2 top nts iA iB iC s EA EB OutOfBounds o). apply (doSymbolic_many mul A B nb nth HA HB Hin); [lia|]. rewrite prods_all. exact Hm.
Qed.
Print Assumptions C67_many_products_refuted.

(** A row with 2^27 products or more, which no number of blocks divides: the size of its block in bytes is more than an int holds. *)
Theorem C67_big_row_refuted :
  forall V (mul add : V -> V -> V) (A : csc V) (B : csr V) (nb bw nth top nts iA iB iC i : nat) (s : gmap nat (obj V)),
  outer_args A B nb bw nth -> c_rows A = c_cols A -> i < c_rows A -> (2 ^ 27 <= N.of_nat (rowProducts A B i))%N -> s !! iA = Some (OCsc A) -> s !! iB = Some (OMat B) ->
  forall o, Outer2_outcome mul add top nts nth iA iB iC nb bw s o <-> o = Err OutOfBounds.
Proof.
  intros V mul add A B nb bw nth top nts iA iB iC i s [HA HB Hin [N1 N2] [W1 W2] HL Hnth] Hq Hi Hbig EA EB o.
  destruct (N.lt_ge_cases (N.of_nat (length (prods mul A B))) (2 ^ 31)) as [Ht|Ht].
  - destruct (doSymbolic_ok mul A B nb nth (length (prods mul A B)) HA HB Hin N1 Hnth ltac:(lia) ltac:(lia) Ht) as (rtb & offs & blk & ES & Ho & Hrtb & Hblk & _).
    { intros r _. unfold rowP, ofBlk. apply filter_length. }
    apply (outer2_big mul add A B Hin nb bw nth N1 N2 W1 W2 Hnth top nts iA iB iC s EA EB Hq rtb offs blk ES Hrtb Hblk (blk i) o (Hblk i Hi)).
    pose proof (row_in_block blk i (prods mul A B)) as Hr. fold (rowP mul A B i) in Hr. rewrite rowP_products in Hr. lia.
  - apply (outer2_err mul add A B nb bw nth N2 W2 top nts iA iB iC s EA EB OutOfBounds o). apply (doSymbolic_many mul A B nb nth HA HB Hin); [lia|exact Ht].
Qed.
Print Assumptions C67_big_row_refuted.

(** 2^17 - 1 rows or more: scan is asked for one more cell than nnz_by_row has, and its parallel version reads that cell. *)
Theorem C67_many_rows_refuted :
  forall V (mul add : V -> V -> V) (A : csc V) (B : csr V) (nb bw nth top nts iA iB iC : nat) (s : gmap nat (obj V)),
  outer_args A B nb bw nth -> outer2_sizes A B nb -> (2 ^ 17 <= N.of_nat (c_rows A + 1))%N -> 1 <= nts <= c_rows A + 1 ->
  outer_objs A B iA iB iC s -> (iC = iB -> nnz B <> 0) ->
  forall o, Outer2_outcome mul add top nts nth iA iB iC nb bw s o <-> o = Err OutOfBounds.
Proof.
  intros V mul add A B nb bw nth top nts iA iB iC s Ha Hz HN Hnts (EA & EB & C0 & EC) Hal o.
  destruct (sym_ready mul A B nb bw nth Ha Hz) as (rtb & offs & blk & ES & Ho & Hrtb & Hblk & Hmono & Hfl & Hkey).
  destruct Ha as [HA HB Hin [N1 N2] [W1 W2] HL Hnth].
  destruct (resetCsr_ok A B iA iB iC s C0 EA EB EC Hal) as (s1 & lost & Hreset & Hs1).
  destruct (outer2_end mul add A B HA HB Hin nb bw nth N1 N2 W1 W2 Hnth top nts iA iB iC s EA EB (o2_square _ _ _ Hz) rtb offs blk ES Ho Hrtb Hblk HL Hfl Hmono Hkey s1 (cols B) lost Hreset) as (mx & HU & Ms & HM & HE).
  pose proof (fun l0 Ms o => end_large A B Hin (blockId2 rtb) blk top nts iC s1 (cols B) lost l0 Ms o HN Hnts) as Hend.
  split.
  - intros Hout. destruct (HU o Hout) as (Ms' & _ & Ho'). apply Hend in Ho'. exact Ho'.
  - intros ->. apply HE, Hend. reflexivity.
Qed.
Print Assumptions C67_many_rows_refuted.

(** C is B itself and has no entries: make_empty sets its dimensions to 0 before B.cols is read, and C ends up with no columns. *)
Theorem C67_alias_refuted :
  forall V (mul add : V -> V -> V) (A : csc V) (B : csr V) (nb bw nth top nts iA iB : nat) (s : gmap nat (obj V)),
  outer_args A B nb bw nth -> outer2_sizes A B nb -> (N.of_nat (c_rows A + 1) < 2 ^ 17)%N -> s !! iA = Some (OCsc A) -> s !! iB = Some (OMat B) -> nnz B = 0 ->
  (exists o, Outer2_outcome mul add top nts nth iA iB iB nb bw s o) /\
  forall o, Outer2_outcome mul add top nts nth iA iB iB nb bw s o -> exists C lost, o = Ok (<[iB := OMat C]> s, lost) /\ rows C = c_rows A /\ cols C = 0.
Proof.
  intros V mul add A B nb bw nth top nts iA iB s Ha Hz HN EA EB Hn0.
  destruct (sym_ready mul A B nb bw nth Ha Hz) as (rtb & offs & blk & ES & Ho & Hrtb & Hblk & Hmono & Hfl & Hkey).
  destruct Ha as [HA HB Hin [N1 N2] [W1 W2] HL Hnth].
  destruct (resetCsr_alias A B iA iB s EA EB Hn0) as (s1 & lost & Hreset & Hs1).
  destruct (outer2_end mul add A B HA HB Hin nb bw nth N1 N2 W1 W2 Hnth top nts iA iB iB s EA EB (o2_square _ _ _ Hz) rtb offs blk ES Ho Hrtb Hblk HL Hfl Hmono Hkey s1 0 lost Hreset) as (mx & HU & Ms & HM & HE).
  pose proof (fun l0 Ms o => end_ok mul add A B HA HB Hin (blockId2 rtb) blk top nts iB s1 0 lost l0 Ms o HN) as Hend.
  split.
  - eexists. apply HE. apply Hend; [exact HM|reflexivity].
  - intros o Hout. destruct (HU o Hout) as (Ms' & HM' & Ho'). apply Hend in Ho'; [|exact HM']. rewrite Ho', Hs1. eexists _, _. split; [reflexivity|]. split; reflexivity.
Qed.
Print Assumptions C67_alias_refuted.

(** No blocks, or a number of blocks that is 0 as a uint16_t: the division of 75 is one by 0. *)
Theorem C67_no_blocks_refuted :
  forall V (mul add : V -> V -> V) (A : csc V) (B : csr V) (nblockers bw nth top nts iA iB iC : nat) (s : gmap nat (obj V)),
  (N.of_nat nblockers mod 2 ^ 16 = 0)%N -> wf_csc A -> wf B -> c_cols A = rows B -> c_cols A <= c_rows A -> (N.of_nat (allProducts A B) < 2 ^ 31)%N -> s !! iA = Some (OCsc A) -> s !! iB = Some (OMat B) ->
  forall o, Outer2_outcome mul add top nts nth iA iB iC nblockers bw s o <-> o = Err DivByZero.
Proof.
  intros V mul add A B nblockers bw nth top nts iA iB iC s Hz HA HB Hin Hle Ht EA EB o. unfold Outer2_outcome. cbv zeta.
  assert (E : u16 nblockers = 0) by (unfold u16; rewrite Hz; reflexivity). rewrite E.
  assert (E0 : (A <- deref_csc s iA ;; B <- deref s iB ;; '(rtb, offs, fl) <- doSymbolic A B 0 nth ;; Ok (A, B, rtb, offs, fl)) = Err DivByZero).
  { unfold deref_csc, deref. rewrite EA, bind_Ok, EB, bind_Ok, (doSymbolic_zero mul A B nth HA HB Hin Hle); [reflexivity|]. rewrite prods_all. exact Ht. }
  rewrite E0. unfold obind at 1, only at 1. split.
  - intros [(f & Ef & ->)|(x & Ex & _)]; [injection Ef as ->; reflexivity|discriminate].
  - intros ->. left. exists DivByZero. split; reflexivity.
Qed.
Print Assumptions C67_no_blocks_refuted.

(** flops_by_iters (57), blocker_row_count (82), flops_by_rows (223), thread_rows_offset (225), global_blocker_counters (229) and sorting_buffer (233) are never
    released. *)
Theorem C67_leak_refuted :
  forall V (mul add : V -> V -> V) (A : csc V) (nb bw nth top nts iA iB iC : nat) (s s' : gmap nat (obj V)) lost,
  s !! iA = Some (OCsc A) -> Outer2_outcome mul add top nts nth iA iB iC nb bw s (Ok (s', lost)) -> (N.of_nat nb < 2 ^ 16)%N -> 2 * c_rows A + 2 * nb + 2 * nth + 1 <= lost.
Proof.
  intros V mul add A nb bw nth top nts iA iB iC s s' lost EA Ho Hnb. unfold Outer2_outcome in Ho. cbv zeta in Ho.
  assert (HI : forall X Y (P : res X -> Prop) (k : X -> res Y -> Prop) y, obind P k (Ok y) -> exists x, P (Ok x) /\ k x (Ok y)).
  { intros X Y P k y [(f & _ & E)|H]; [discriminate|exact H]. }
  apply HI in Ho as ([[[[A' B'] rtb] offs] fl] & E0 & Ho). unfold only in E0. unfold deref_csc in E0. rewrite EA, bind_Ok in E0.
  assert (A' = A) as ->. { destruct (deref s iB); [|discriminate]. rewrite bind_Ok in E0. destruct (doSymbolic _ _ _ _) as [[[? ?] ?]|]; [|discriminate]. rewrite bind_Ok in E0. injection E0 as -> _ _ _ _. reflexivity. }
  apply HI in Ho as (mx & _ & Ho). apply HI in Ho as ([cnts blks] & _ & Ho). apply HI in Ho as ([ns blks'] & _ & Ho).
  apply HI in Ho as (cum & _ & Ho). apply HI in Ho as ([[[[total s1] nr] nc] l0] & _ & Ho). apply HI in Ho as ([[nbr ids] vals] & _ & Ho). apply HI in Ho as (rp & _ & Ho).
  unfold only in Ho. injection Ho as _ ->. rewrite (u16_id nb Hnb). lia.
Qed.
Print Assumptions C67_leak_refuted.

(** A width of 0, or one that is 0 as a uint16_t: there is no room for even one tuple. *)
Theorem C67_no_width_refuted : forall bw top nts, (N.of_nat bw mod 2 ^ 16 = 0)%N ->
  Outer2_outcome Nat.mul Nat.add top nts 1 0 1 1 1 bw {[ 0 := OCsc exwA; 1 := OMat exwB ]} (Err OutOfBounds).
Proof.
  intros bw top nts Hz. unfold Outer2_outcome. cbv zeta. assert (E : u16 bw = 0) by (unfold u16; rewrite Hz; reflexivity). rewrite E. change (u16 1) with 1.
  right. exists (exwA, exwB, [Some 0], [0; 1], [1]). split; [reflexivity|]. cbv iota beta.
  right. exists 1. split; [reflexivity|].
  left. exists OutOfBounds. split; [|reflexivity].
  eapply (fout_fault _ _ _ _ 0); [apply rtc_refl|reflexivity|reflexivity].
Qed.
Print Assumptions C67_no_width_refuted.

(** The sorting key (132) has 16 bits for the column.  Here A is the identity and B has column 65537 in row 0 and column 0 in row 1; the entry of
    row 1 is sorted before that of row 0, and row 0 of C has column 0. *)
Definition k2A : csc nat := mkCsc 2 2 2 [0; 1; 2] [0; 1] [1; 1].
Definition k2B (w : nat) : csr nat := mkCsr 2 (w + 1) 2 [0; 1; 2] [w; 0] [5; 7].
Definition k2S (w : nat) : gmap nat (obj nat) := {[ 0 := OCsc k2A; 1 := OMat (k2B w); 2 := OMat (mkCsr 0 0 0 [] [] []) ]}.
Lemma k2A_wf : wf_csc k2A.
Proof.
  constructor; try reflexivity; cbn.
  - intros [|[|[|i]]] a b Ha Hb; cbn in Ha, Hb; try discriminate; injection Ha as <-; injection Hb as <-; lia.
  - intros [|[|p]] c Hp; cbn in Hp; try discriminate; injection Hp as <-; lia.
Qed.
Lemma k2B_wf w : wf (k2B w).
Proof.
  constructor; try reflexivity; cbn.
  - intros [|[|[|i]]] a b Ha Hb; cbn in Ha, Hb; try discriminate; injection Ha as <-; injection Hb as <-; lia.
  - intros [|[|p]] c Hp; cbn in Hp; try discriminate; injection Hp as <-; lia.
Qed.
Lemma k2_args w : outer_args k2A (k2B w) 1 1 1.
Proof. constructor; try apply k2A_wf; try apply k2B_wf; try reflexivity; split; lia || reflexivity. Qed.
Definition k2P (w : nat) : list (nat * nat * nat) := [(0, w, 5); (1, 0, 7)].

Lemma k2_sort w g buf : N.of_nat w = 65537%N -> g ≡ₚ k2P w -> length buf = 2 -> sortBlock Nat.add key16 buf 2 (Some <$> g) = Ok (2, [Some (1, 0, 7); Some (0, w, 5)]).
Proof.
  intros Hw Hg Hb. unfold sortBlock. cbn [rsort].
  assert (K0 : forall v : nat, key16 (0, w, v) = 65537%N) by (intros v; unfold key16; cbn [fst snd]; rewrite Hw; reflexivity).
  assert (K1 : forall v : nat, key16 (1, 0, v) = 65536%N) by (intros v; reflexivity).
  assert (Lg : length g = 2) by (rewrite Hg; reflexivity).
  assert (Hel : forall x, x ∈ g -> x = (0, w, 5) \/ x = (1, 0, 7)).
  { intros x Hx. rewrite Hg in Hx. unfold k2P in Hx. rewrite !elem_of_cons, elem_of_nil in Hx. tauto. }
  destruct (sizedSort_ok 4 key16 g (Some <$> g) buf) as (a' & b' & l' & E & L1 & _ & _ & _ & Hh & Hp & Hs & _).
  - rewrite Lg. reflexivity || (vm_compute; discriminate).
  - intros x Hx. destruct (Hel x Hx) as [-> | ->]; [rewrite K0|rewrite K1]; reflexivity.
  - split; [rewrite fmap_length; lia|]. intros q x Hq. rewrite list_lookup_fmap, Hq. reflexivity.
  - lia.
  - rewrite Lg in E. rewrite E, bind_Ok. change (Nat.odd 4) with false in Hh. cbv iota in Hh.
    assert (El : l' = [(1, 0, 7); (0, w, 5)]).
    { assert (Hpp : l' ≡ₚ k2P w) by (rewrite Hp; exact Hg). assert (Ll : length l' = 2) by (rewrite Hpp; reflexivity). destruct l' as [|x [|y [|]]]; try discriminate.
      apply symmetry, Permutation_length_2_inv in Hpp as [Eq|Eq]; [|injection Eq as -> ->; reflexivity].
      injection Eq as -> ->. inversion Hs as [|? ? _ Hf]; subst. inversion Hf as [|? ? Hle]; subst. cbv beta in Hle. rewrite K0, K1 in Hle. vm_compute in Hle. congruence. }
    subst l'. assert (Ea : a' = [Some (1, 0, 7); Some (0, w, 5)]).
    { rewrite fmap_length, Lg in L1. destruct a' as [|x [|y [|]]]; try discriminate. destruct Hh as [_ Hh]. pose proof (Hh 0 _ eq_refl) as A0. pose proof (Hh 1 _ eq_refl) as A1. cbn in A0, A1. congruence. }
    subst a'. unfold doMerge. cbn [Nat.eqb for_ for_n Nat.sub getI get lookup list_lookup bind fst snd]. rewrite andb_false_r. reflexivity.
Qed.

Lemma k2_of : exists w, N.of_nat w = 65537%N.
Proof. exists (N.to_nat 65537). apply N2Nat.id. Qed.

Theorem C67_wide_columns_refuted :
  ~ forall V (mul add : V -> V -> V) (A : csc V) (B : csr V) (nb bw nth top nts iA iB iC : nat) (s : gmap nat (obj V)),
    outer_args A B nb bw nth -> c_rows A = c_cols A -> 1 <= c_rows A -> (N.of_nat (c_rows A) <= 2 ^ 16)%N ->
    (N.of_nat (allProducts A B) < 2 ^ 26)%N -> outer_objs A B iA iB iC s -> (iC = iB -> nnz B <> 0) ->
    forall o, Outer2_outcome mul add top nts nth iA iB iC nb bw s o -> outer_right mul add A B iC s o.
Proof.
  intros H. destruct k2_of as (w & Hw). set (B := k2B w). set (S := k2S w).
  assert (EP : prods Nat.mul k2A B = k2P w) by reflexivity.
  assert (ES : doSymbolic k2A B 1 1 = Ok ([Some 0; Some 0], [0; 2], counts (fun _ => 0) 1 (prods Nat.mul k2A B))) by reflexivity.
  assert (Hof : offsOk (c_rows k2A) 1 [0; 2]).
  { constructor; [reflexivity|]. exists [0]. split; [reflexivity|]. split; [reflexivity|]. split; [cbn; lia|]. split; [intros [|q] a b Ha Hb; cbn in Hb; discriminate|]. intros a Ha. apply elem_of_list_singleton in Ha as ->. lia. }
  assert (Hrtb : forall r, r < c_rows k2A -> [Some 0; Some 0] !! r = Some (Some 0)) by (intros [|[|r]] Hr; [reflexivity|reflexivity|cbn in Hr; lia]).
  assert (Hblk : forall r, r < c_rows k2A -> 0 < 1) by (intros; lia).
  assert (Hfl : forall b, b < 1 -> (N.of_nat (length (ofBlk (fun _ => 0%nat) b (prods Nat.mul k2A B))) < 2 ^ 27)%N) by (intros [|b] Hb; [reflexivity|lia]).
  assert (Hreset : exists s1 lost, resetCsr 0 1 2 S = Ok (s1, c_rows k2A, cols B, lost) /\ forall o, <[2 := o]> s1 = <[2 := o]> S).
  { eapply (resetCsr_ok k2A B 0 1 2 S); try reflexivity. discriminate. }
  destruct Hreset as (s1 & lost & Hreset & Hs1).
  destruct (outer2_front Nat.mul Nat.add k2A B k2A_wf (k2B_wf w) eq_refl 1 1 1 ltac:(lia) ltac:(reflexivity) ltac:(lia) ltac:(reflexivity) ltac:(lia) 0 1 0 1 2 S eq_refl eq_refl eq_refl
    [Some 0; Some 0] [0; 2] (fun _ => 0) ES Hof Hrtb Hblk ltac:(reflexivity) Hfl) as (mx & [(b & Hb & Emx) _] & _ & G & HG & HE).
  assert (b = 0) as -> by lia. change (mx = 2) in Emx. subst mx.
  change (seq 0 1) with [0] in HG. change (Forall2 Permutation G [k2P w]) in HG. inversion HG as [|g ? G' ? Hg HG' E1 E2]; subst. inversion HG'; subst. clear HG HG'.
  set (M := [(1, 0, 7); (0, w, 5)]).
  assert (HS : forall bufs : nat -> list (option (nat * nat * nat)), (forall b, length (bufs b) = 2) -> OuterProofs.sortsTo Nat.add k2A 1 (fun _ => 0) key16 bufs [g] [M]).
  { intros bufs Hbufs. pose proof (k2_sort w g (bufs 0) Hw Hg (Hbufs 0)) as EM. exists [Some <$> M]. split.
    - assert (Lg : length g = 2) by (rewrite Hg; reflexivity).
      change ((fun l : list (nat * nat * nat) => Some <$> l) <$> [g]) with [Some <$> g]. change (length <$> [g]) with [length g]. rewrite Lg.
      change ((r <- ('(n, blk) <- sortBlock Nat.add key16 (bufs 0) 2 (Some <$> g) ;; Ok ([n], [blk])) ;; Ok r) = Ok ([2], [Some <$> M])). rewrite EM. reflexivity.
    - split; [constructor; [|constructor]|split; [reflexivity|]].
      + split; [rewrite fmap_length; lia|]. intros q x Hq. rewrite list_lookup_fmap, Hq. reflexivity.
      + intros [|b] M' x HM Hx; [|discriminate]. injection HM as <-. split; [reflexivity|]. unfold M in Hx. rewrite !elem_of_cons, elem_of_nil in Hx. cbn [c_rows k2A]. destruct Hx as [->|[->|[]]]; cbn; lia. }
  destruct (rest_sorted Nat.add k2A B eq_refl 1 (blockId2 [Some 0; Some 0]) (fun _ => 0) key16 ltac:(reflexivity) Hblk 0 1 0 1 2 S s1 (cols B) lost Hreset (c_rows k2A + 1 + c_rows k2A + (1 + 1) + 1 + 1 + 1 * 2) 2 [g]) as [_ (bufs & Ms & Hbufs & HMs & HX)].
  { intros bufs Hbufs. exists [M]. apply HS, Hbufs. }
  rewrite <- (sortsTo_det Nat.add k2A 1 (fun _ => 0) key16 bufs [g] [M] Ms (HS bufs Hbufs) HMs) in *. clear HMs Ms.
  set (o := Ok (<[2 := OMat (mkCsr (c_rows k2A) (cols B) (length (mjoin [M])) (psum 0 Nat.add (outNbr (c_rows k2A) [M]) <$> seq 0 (c_rows k2A + 1)) (outIds [M]) (outVals [M]))]> s1,
    lost + (c_rows k2A + 1 + c_rows k2A + (1 + 1) + 1 + 1 + 1 * 2)) : res (gmap nat (obj nat) * nat)).
  assert (Ho : Outer2_outcome Nat.mul Nat.add 0 1 1 0 1 2 1 1 S o).
  { apply HE, HX; [left; exists 0; exact I|]. right. eexists. split; [|reflexivity]. apply scanned_iff; [lia| | |reflexivity|reflexivity].
    - unfold outNbr. rewrite fmap_length, seq_length. lia.
    - cbn [length]. rewrite replicate_length. lia. }
  destruct (H nat Nat.mul Nat.add k2A B 1 1 1 0 1 0 1 2 S (k2_args w) eq_refl ltac:(cbn; lia) ltac:(vm_compute; discriminate) ltac:(reflexivity)
    ltac:(split; [reflexivity|split; [reflexivity|eexists; reflexivity]]) ltac:(discriminate) o Ho) as (C & lost' & EC & _ & _ & _ & HC).
  unfold o in EC. apply (f_equal (fun r => match r with Ok (x, _) => x !! 2 | Err _ => None end)) in EC. cbv beta iota in EC. rewrite !lookup_insert in EC.
  apply (f_equal (fun x => match x with Some (OMat c) => c | _ => B end)) in EC. cbv beta iota in EC. subst C.
  specialize (HC 0 ltac:(cbn; lia)). destruct HC as (_ & HC & _). specialize (HC 0).
  change (0 ∈ (fst <$> [(0, 7)]) <-> outerProducts Nat.mul k2A B 0 0 <> []) in HC. apply HC; [left|].
  unfold outerProducts. cbn [c_cols k2A seq fmap list_fmap]. change (col_entries k2A 0) with [(0, 1)]. change (col_entries k2A 1) with [(1, 1)].
  change (row_entries B 0) with [(w, 5)]. change (row_entries B 1) with [(0, 7)].
  rewrite (filter_cons_False (fun cb : nat * nat => fst cb = 0) (w, 5)) by (cbn; lia). reflexivity.
Qed.
Print Assumptions C67_wide_columns_refuted.

(** *** Cases *)
(** C67_outer2, C67_same_product: 3 rows in 2 blocks, 2 threads, C is B.  There are 6 products, 3 of them in row 1; cell (1, 0) has two. *)
Definition ex2A : csc nat := mkCsc 3 3 4 [0; 2; 3; 4] [0; 1; 1; 2] [2; 3; 5; 7].
Definition ex2B : csr nat := mkCsr 3 4 4 [0; 2; 3; 4] [0; 2; 0; 3] [11; 13; 17; 19].
Definition ex2S : gmap nat (obj nat) := {[ 0 := OCsc ex2A; 1 := OMat ex2B ]}.
Lemma ex2_args : outer_args ex2A ex2B 2 3 2.
Proof.
  constructor; try reflexivity; try (split; lia || reflexivity); try lia.
  - constructor; try reflexivity; cbn.
    + intros [|[|[|[|i]]]] a b Ha Hb; cbn in Ha, Hb; try discriminate; injection Ha as <-; injection Hb as <-; lia.
    + intros [|[|[|[|p]]]] c Hp; cbn in Hp; try discriminate; injection Hp as <-; lia.
  - constructor; try reflexivity; cbn.
    + intros [|[|[|[|i]]]] a b Ha Hb; cbn in Ha, Hb; try discriminate; injection Ha as <-; injection Hb as <-; lia.
    + intros [|[|[|[|p]]]] c Hp; cbn in Hp; try discriminate; injection Hp as <-; lia.
Qed.
Lemma rowProducts_none {V} (A : csc V) (B : csr V) i : wf_csc A -> c_rows A <= i -> rowProducts A B i = 0.
Proof.
  intros HA Hi. unfold rowProducts. induction (seq 0 (c_cols A)) as [|k l IH]; [reflexivity|]. rewrite fmap_cons. cbn [sum_list sum_list_with foldr]. unfold id.
  rewrite filter_none; [cbn [length]; exact IH|]. intros [r a] Hr E. cbn in E. subst r. pose proof (row_entries_range (csc_tr A) k i a HA Hr) as Hlt. cbn in Hlt. lia.
Qed.
Lemma small_rows {V} (A : csc V) (B : csr V) : wf_csc A -> (N.of_nat (c_rows A) <= 2 ^ 16)%N -> forall i, 1 <= rowProducts A B i -> (N.of_nat i < 2 ^ 16)%N.
Proof. intros HA Hr i Hi. destruct (Nat.lt_ge_cases i (c_rows A)) as [L|L]; [lia|]. rewrite (rowProducts_none A B i HA L) in Hi. lia. Qed.

Example ex_outer2 : outer_args ex2A ex2B 2 3 2 /\ outer2_sizes ex2A ex2B 2 /\ (N.of_nat (c_rows ex2A + 1) < 2 ^ 17)%N /\ outer_objs ex2A ex2B 0 1 1 ex2S /\ nnz ex2B <> 0 /\
  outerProducts Nat.mul ex2A ex2B 1 0 = [33; 85] /\ allProducts ex2A ex2B = 6 /\ rowProducts ex2A ex2B <$> [0; 1; 2] = [2; 3; 1] /\
  doSymbolic ex2A ex2B 2 2 = Ok ([Some 0; Some 0; Some 1], [0; 0; 3], [5; 1]).
Proof.
  split; [exact ex2_args|]. split; [|split; [reflexivity|split; [split; [reflexivity|split; [reflexivity|eexists; reflexivity]]|split; [discriminate|repeat split; vm_compute; reflexivity]]]].
  constructor; [reflexivity|cbn; lia|vm_compute; reflexivity| |apply small_rows; [apply (oa_A _ _ _ _ _ ex2_args)|vm_compute; discriminate]|vm_compute; discriminate].
  intros [|[|[|i]]] Hi; [vm_compute; reflexivity|vm_compute; reflexivity|vm_compute; reflexivity|cbn in Hi; lia].
Qed.
(** A by rows. *)
Definition ex2A' : csr nat := mkCsr 3 3 4 [0; 1; 3; 4] [0; 0; 1; 2] [2; 3; 5; 7].
Example ex_outer2_rows : row_entries ex2A' 1 = [(0, 3); (1, 5)] /\ prod_entry Nat.mul Nat.add ex2A' ex2B 1 0 = Some 118.
Proof. vm_compute. auto. Qed.

(** C67_not_square: the matrices of C51's case have 100 rows and 2 columns.  C67_no_rows, C67_no_blocks. *)
Example ex_outer2_tall : outer_args exoA exoB 2 3 2 /\ c_rows exoA <> c_cols exoA.
Proof. split; [apply ex_outer|discriminate]. Qed.
Example ex_outer2_none : exists (A : csc nat) (B : csr nat), outer_args A B 1 1 1 /\ c_rows A = 0 /\ c_cols A = 0 /\ cols B = 3.
Proof.
  exists (mkCsc 0 0 0 [0] [] []), (mkCsr 0 3 0 [0] [] []). split; [|auto].
  constructor; try reflexivity; try (split; lia || reflexivity); try lia; constructor; try reflexivity; cbn;
    try (intros [|i] a b Ha Hb; cbn in Ha, Hb; discriminate); intros p c Hp; rewrite lookup_nil in Hp; discriminate.
Qed.

(** C67_many_products, C67_big_row: one row, 2^16 entries in a column of A, 2^15 in a row of B. *)
Example ex_outer2_big : exists (A : csc nat) (B : csr nat), outer_args A B 1 1 1 /\ c_rows A = c_cols A /\ 0 < c_rows A /\ (2 ^ 31 <= N.of_nat (allProducts A B))%N /\ (2 ^ 27 <= N.of_nat (rowProducts A B 0))%N.
Proof.
  assert (H : forall n m, let A := mkCsc 1 1 (length (replicate n 0)) [0; length (replicate n 0)] (replicate n 0) (replicate n 1) in
    let B := mkCsr 1 1 (length (replicate m 0)) [0; length (replicate m 0)] (replicate m 0) (replicate m 1) in
    outer_args A B 1 1 1 /\ allProducts A B = n * m /\ rowProducts A B 0 = n * m).
  { intros n m A B.
    assert (HA : wf_csc A). { apply (wf_one 1 1 (replicate n 0) (replicate n 1)); [rewrite !replicate_length; reflexivity| |reflexivity]. intros p x Hp. apply lookup_replicate in Hp as [-> _]. lia. }
    assert (HB : wf B). { apply (wf_one 1 1 (replicate m 0) (replicate m 1)); [rewrite !replicate_length; reflexivity| |reflexivity]. intros p x Hp. apply lookup_replicate in Hp as [-> _]. lia. }
    split; [constructor; try assumption; try reflexivity; try (split; lia || reflexivity); lia|].
    assert (E : filter (fun ra : nat * nat => fst ra = 0) (col_entries A 0) = col_entries A 0).
    { apply filter_all. intros [r a] Hr. pose proof (row_entries_range (csc_tr A) 0 r a HA Hr) as Hlt. cbn [csc_tr cols c_rows A] in Hlt. cbn [fst]. lia. }
    assert (LA : length (col_entries A 0) = n).
    { unfold col_entries. rewrite (row_entries_length (csc_tr A) 0 0 (length (replicate n 0)) HA); [rewrite replicate_length; lia|cbn; lia|reflexivity|reflexivity]. }
    assert (LB : length (row_entries B 0) = m).
    { rewrite (row_entries_length B 0 0 (length (replicate m 0)) HB); [rewrite replicate_length; lia|cbn; lia|reflexivity|reflexivity]. }
    clearbody B. unfold allProducts, rowProducts. change (seq 0 (c_cols A)) with [0]. rewrite !fmap_cons. cbn [fmap list_fmap sum_list sum_list_with foldr]. unfold id. rewrite E, LA, LB. lia. }
  destruct (H (2 ^ 16) (2 ^ 15)) as (H1 & H2 & H3). eexists _, _. split; [exact H1|]. split; [reflexivity|]. split; [cbn [c_rows]; lia|]. rewrite H2, H3.
  rewrite Nat2N.inj_mul, !Nat2N.inj_pow. split; vm_compute; discriminate.
Qed.

(** C67_many_rows: matrices without entries, of 2^17 rows and columns. *)
Lemma wf_zero {V} (r c : nat) : wf (mkCsr (V := V) r c 0 (replicate (r + 1) 0) [] []).
Proof.
  constructor; cbn [rowptr colids values rows cols nnz]; try reflexivity.
  - apply replicate_length.
  - apply lookup_replicate_2. lia.
  - intros i a b Ha Hb. apply lookup_replicate in Ha as [-> _]. lia.
  - apply lookup_replicate_2. lia.
  - intros p x Hp. rewrite lookup_nil in Hp. discriminate.
Qed.
Lemma entries_zero {V} (r c i : nat) : row_entries (mkCsr (V := V) r c 0 (replicate (r + 1) 0) [] []) i = [].
Proof. unfold row_entries. cbn [rowptr colids values]. destruct (_ !! i); [|reflexivity]. destruct (_ !! (i + 1)); [|reflexivity]. cbn [zip_with]. rewrite drop_nil, take_nil. reflexivity. Qed.
Example ex_outer2_rows_large : exists (A : csc nat) (B : csr nat), outer_args A B 64 1 1 /\ outer2_sizes A B 64 /\ (2 ^ 17 <= N.of_nat (c_rows A + 1))%N /\ nnz B = 0.
Proof.
  assert (H : forall n, 1 <= n -> let A := mkCsc (V := nat) n n 0 (replicate (n + 1) 0) [] [] in let B := mkCsr (V := nat) n 5 0 (replicate (n + 1) 0) [] [] in outer_args A B 64 1 1 /\ outer2_sizes A B 64).
  { intros n Hn A B.
    assert (HZ : forall i, rowProducts A B i = 0).
    { intros i. unfold rowProducts. induction (seq 0 (c_cols A)) as [|k l IH]; [reflexivity|]. rewrite fmap_cons. cbn [sum_list sum_list_with foldr]. unfold id, B. rewrite entries_zero, Nat.mul_0_r. exact IH. }
    assert (HZ' : allProducts A B = 0).
    { unfold allProducts. induction (seq 0 (c_cols A)) as [|k l IH]; [reflexivity|]. rewrite fmap_cons. cbn [sum_list sum_list_with foldr]. unfold id, B. rewrite entries_zero, Nat.mul_0_r. exact IH. }
    split.
    - constructor; try reflexivity; try (split; lia || reflexivity); try lia; [apply (wf_zero n n)|apply wf_zero].
    - constructor; [reflexivity|exact Hn|rewrite HZ'; reflexivity|intros i _; rewrite HZ', HZ; reflexivity|intros i Hi; rewrite HZ in Hi; lia|vm_compute; discriminate]. }
  destruct (H (N.to_nat (2 ^ 17)) ltac:(lia)) as [H1 H2]. eexists _, _. split; [exact H1|]. split; [exact H2|]. split; [|reflexivity].
  cbn [c_rows]. rewrite Nat2N.inj_add, N2Nat.id. vm_compute. discriminate.
Qed.
(** C67_alias, C67_leak. *)
Example ex_outer2_alias : exists (A : csc nat) (B : csr nat), outer_args A B 1 1 1 /\ outer2_sizes A B 1 /\ nnz B = 0 /\ cols B = 5 /\ 1 <= c_rows A.
Proof.
  exists (mkCsc 1 1 1 [0; 1] [0] [3]), (mkCsr 1 5 0 [0; 0] [] []).
  assert (HA : wf_csc (mkCsc 1 1 1 [0; 1] [0] [3])) by (apply (wf_one 1 1 [0] [3]); try reflexivity; intros [|p] c Hp; cbn in Hp; try discriminate; injection Hp as <-; lia).
  split; [|split; [|cbn; auto]].
  - constructor; try reflexivity; try (split; lia || reflexivity); try lia; [exact HA|].
    apply (wf_one 1 5 [] (@nil nat)); try reflexivity. intros p c Hp. rewrite lookup_nil in Hp. discriminate.
  - constructor; [reflexivity|cbn; lia|vm_compute; reflexivity|intros [|i] Hi; [vm_compute; reflexivity|cbn in Hi; lia]|apply small_rows; [exact HA|vm_compute; discriminate]|vm_compute; discriminate].
Qed.
