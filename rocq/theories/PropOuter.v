(** C51: OuterSpGEMM of outer_mult.h.  Words used: [Outer_outcome] (OuterModel: what a call may result in, over all distributions of the
    loops and all interleavings; faults, data races and runs without an end are outcomes [Err _]); [row_entries], [col_entries],
    [wf], [wf_csc], [sum1], [prod_entry], [same_matrix] (Spec). *)
From stdpp Require Import numbers.
From Coq Require Import NArith.
From Verif Require Import BaseProofs ParModel ParProofs ConcProofs ScanProofs Assemble SortProofs RadixProofs HeapStatements DriverBase IsectProofs OuterModel OuterProofs.
From Verif Require Import Base Spec.

(** The products that make up cell (i, j) of A*B: [mul a b] for (i, a) in column k of A and (j, b) in row k of B. *)
Definition outerProducts {V} (mul : V -> V -> V) (A : csc V) (B : csr V) (i j : nat) : list V :=
  mjoin ((fun k => mjoin ((fun ra => (fun cb => mul (snd ra) (snd cb)) <$> filter (fun cb => fst cb = j) (row_entries B k)) <$>
    filter (fun ra => fst ra = i) (col_entries A k))) <$> seq 0 (c_cols A)).

(** [l] is row [i] of A*B: the columns that have a product, in increasing order, each value the sum of its products in some order. *)
Definition outer_row {V} (mul add : V -> V -> V) (A : csc V) (B : csr V) (i : nat) (l : list (nat * V)) : Prop :=
  StronglySorted lt (fst <$> l) /\ (forall j, j ∈ (fst <$> l) <-> outerProducts mul A B i j <> []) /\
  forall j v, (j, v) ∈ l -> exists ord, ord ≡ₚ outerProducts mul A B i j /\ sum1 add ord = Some v.

(** The call ends with A*B in the place of C, and every other object as before. *)
Definition outer_right {V} (mul add : V -> V -> V) (A : csc V) (B : csr V) (iC : nat) (s : gmap nat (obj V)) (o : res (gmap nat (obj V) * nat)) : Prop :=
  exists C lost, o = Ok (<[iC := OMat C]> s, lost) /\ wf C /\ rows C = c_rows A /\ cols C = cols B /\
    forall i, i < c_rows A -> outer_row mul add A B i (row_entries C i).

(** The rows of a block, and the number of products in block [b]. *)
Definition blockRows (n nb : nat) : nat := Nat.max 64 ((n + nb - 1) / nb).
Definition blockProducts {V} (A : csc V) (B : csr V) (R b : nat) : nat :=
  sum_list ((fun k => length (filter (fun ra => fst ra / R = b) (col_entries A k)) * length (row_entries B k)) <$> seq 0 (c_cols A)).

(** Conditions on the arguments: [nth] threads, [nb] blocks of [bw] tuples. *)
Record outer_args {V} (A : csc V) (B : csr V) (nb bw nth : nat) : Prop := {
  oa_A : wf_csc A;
  oa_B : wf B;
  oa_inner : c_cols A = rows B;
  oa_nb : 1 <= nb /\ (N.of_nat nb < 2 ^ 16)%N;
  oa_bw : 1 <= bw /\ (N.of_nat bw < 2 ^ 16)%N;
  oa_local : (N.of_nat nb * N.of_nat bw < 2 ^ 27)%N;
  oa_nth : 1 <= nth }.
(** Conditions on the sizes: every block has less than 2^27 products and at most 4096 rows, and there are at most 2^20 columns. *)
Record outer_sizes {V} (A : csc V) (B : csr V) (nb : nat) : Prop := {
  os_block : forall b, b < nb -> (N.of_nat (blockProducts A B (blockRows (c_rows A) nb) b) < 2 ^ 27)%N;
  os_rows : (N.of_nat (c_rows A) <= 4096 * N.of_nat nb)%N;
  os_cols : (N.of_nat (cols B) <= 2 ^ 20)%N }.
(** The objects: A, B and a C that may hold anything, or be B itself. *)
Definition outer_objs {V} (A : csc V) (B : csr V) (iA iB iC : nat) (s : gmap nat (obj V)) : Prop :=
  s !! iA = Some (OCsc A) /\ s !! iB = Some (OMat B) /\ exists C0, s !! iC = Some (OMat C0).

Section St.
Context {V : Type} (mul add : V -> V -> V) (A : csc V) (B : csr V).
Notation T := (prods mul A B).

Lemma filter_ent i j k ra : filter (fun x : nat * nat * V => x.1 = (i, j)) (entTriples mul B k ra) =
  if decide (fst ra = i) then (fun cb => (i, j, mul (snd ra) (snd cb))) <$> filter (fun cb => fst cb = j) (row_entries B k) else [].
Proof.
  unfold entTriples. induction (row_entries B k) as [|[c v] l IH]; [destruct (decide _); reflexivity|]. rewrite fmap_cons, !filter_cons, IH. cbn [fst snd].
  destruct (decide (fst ra = i)) as [E|E].
  - destruct (decide (c = j)) as [E2|E2]; [rewrite decide_True by congruence; subst; reflexivity|rewrite decide_False by congruence; reflexivity].
  - rewrite decide_False by congruence. reflexivity.
Qed.

Lemma prods_cell i j : snd <$> filter (fun x : nat * nat * V => x.1 = (i, j)) T = outerProducts mul A B i j.
Proof.
  unfold prods, colsTriples, outerProducts. induction (seq 0 (c_cols A)) as [|k l IH]; [reflexivity|]. rewrite !fmap_cons, !mjoin_cons, filter_app, fmap_app, IH. f_equal.
  unfold colTriples. induction (col_entries A k) as [|ra e IHe]; [reflexivity|]. rewrite fmap_cons, mjoin_cons, filter_app, fmap_app, IHe, filter_ent, filter_cons.
  destruct (decide (fst ra = i)); [|reflexivity]. rewrite fmap_cons, mjoin_cons. f_equal. rewrite <- list_fmap_compose. reflexivity.
Qed.

Lemma prods_block R b : length (ofBlk (fun r => (r / R)%nat) b T) = blockProducts A B R b.
Proof.
  unfold prods, colsTriples, blockProducts. induction (seq 0 (c_cols A)) as [|k l IH]; [reflexivity|]. rewrite !fmap_cons, mjoin_cons, ofBlk_app, app_length, IH. cbn [sum_list]. f_equal.
  unfold colTriples. induction (col_entries A k) as [|ra e IHe]; [reflexivity|]. rewrite fmap_cons, mjoin_cons, ofBlk_app, app_length, IHe, ofBlk_ent, filter_cons.
  destruct (Nat.eqb_spec (fst ra / R) b) as [E|E]; [rewrite decide_True by exact E|rewrite decide_False by exact E]; [|reflexivity].
  cbn [length]. unfold entTriples. rewrite fmap_length. unfold id. lia.
Qed.

Lemma sorted_row i (MM : list (nat * nat * V)) : StronglySorted lt2 (fst <$> MM) -> StronglySorted lt (fst <$> rowF MM i).
Proof.
  intros Hs. unfold rowF. induction MM as [|x MM IH]; [constructor|]. rewrite fmap_cons in Hs. inversion Hs as [|? ? Hs' Hf]; subst. specialize (IH Hs').
  rewrite filter_cons. destruct (decide (x.1.1 = i)) as [E|E]; [|exact IH]. rewrite !fmap_cons. constructor; [exact IH|].
  apply Forall_forall. intros c Hc. apply elem_of_list_fmap in Hc as (cv & -> & Hc). apply elem_of_list_fmap in Hc as (y & -> & Hy). apply elem_of_list_filter in Hy as [Hy1 Hy2].
  rewrite Forall_fmap, Forall_forall in Hf. destruct (Hf y Hy2) as [L|[_ L]]; cbn in L |- *; [lia|exact L].
Qed.

Lemma rowF_elem i j v (MM : list (nat * nat * V)) : (j, v) ∈ rowF MM i <-> ((i, j), v) ∈ MM.
Proof.
  unfold rowF. rewrite elem_of_list_fmap. split.
  - intros ([[a b] w] & E & H). injection E as -> ->. apply elem_of_list_filter in H as [E H]. cbn in E. subst. exact H.
  - intros H. exists ((i, j), v). split; [reflexivity|]. apply elem_of_list_filter. split; [reflexivity|exact H].
Qed.

Lemma merged_row MM i : mergedOf add T MM -> outer_row mul add A B i (rowF MM i).
Proof.
  intros HM. pose proof HM as (H1 & H2 & H3). split; [apply sorted_row, H1|]. split.
  - intros j. split.
    + intros Hj. apply elem_of_list_fmap in Hj as ([j' v] & -> & Hj). apply rowF_elem in Hj. destruct (H2 _ _ Hj) as (ord & Hp & Hs). rewrite prods_cell in Hp.
      cbn [fst]. intros E. rewrite E in Hp. apply Permutation_nil_r in Hp as ->. discriminate.
    + intros Hne. rewrite <- prods_cell in Hne. destruct (filter (fun x : nat * nat * V => x.1 = (i, j)) T) as [|x l] eqn:E; [contradiction|].
      assert (Hx : x ∈ filter (fun x : nat * nat * V => x.1 = (i, j)) T) by (rewrite E; left). apply elem_of_list_filter in Hx as [Ex Hx].
      specialize (H3 x Hx). rewrite Ex in H3. apply elem_of_list_fmap in H3 as ([p v] & Ep & Hv). cbn in Ep. subst p.
      apply elem_of_list_fmap. exists (j, v). split; [reflexivity|]. apply rowF_elem, Hv.
  - intros j v Hv. apply rowF_elem in Hv. destruct (H2 _ _ Hv) as (ord & Hp & Hs). rewrite prods_cell in Hp. eauto.
Qed.

Lemma merged_right MM iC (s s1 : gmap nat (obj V)) lost : wf_csc A -> wf B -> mergedOf add T MM -> (forall o, <[iC := o]> s1 = <[iC := o]> s) ->
  outer_right mul add A B iC s (Ok (<[iC := OMat (newC A (cols B) MM)]> s1, lost)).
Proof.
  intros HA HB HM Hs. exists (newC A (cols B) MM), lost. split; [rewrite Hs; reflexivity|]. split; [|split; [reflexivity|split; [reflexivity|]]].
  - apply assemble_wf. intros i c v Hi Hc. apply rowF_elem in Hc. destruct (mergedOf_from add T MM _ HM Hc) as (y & Hy & E).
    apply (prods_range mul A B HA HB) in Hy as [_ Hy]. rewrite E in Hy. exact Hy.
  - intros i Hi. unfold newC. rewrite assemble_row by exact Hi. apply merged_row, HM.
Qed.
End St.

(** C51.  Whatever the interleaving, the call ends with A*B, within these sizes and as long as A has fewer than 2^17 - 1 rows. *)
Theorem C51_outer_partial :
  forall V (mul add : V -> V -> V) (A : csc V) (B : csr V) (nb bw nth top nts iA iB iC : nat) (s : gmap nat (obj V)),
  outer_args A B nb bw nth -> outer_sizes A B nb -> (N.of_nat (c_rows A + 1) < 2 ^ 17)%N -> outer_objs A B iA iB iC s -> (iC = iB -> nnz B <> 0) ->
  (exists o, Outer_outcome mul add top nts nth iA iB iC nb bw s o) /\
  forall o, Outer_outcome mul add top nts nth iA iB iC nb bw s o -> outer_right mul add A B iC s o.
Proof.
  intros V mul add A B nb bw nth top nts iA iB iC s [HA HB Hin [N1 N2] [W1 W2] HL Hnth] [SB SR SC] HN (EA & EB & C0 & EC) Hal.
  destruct (rowsPerBlock_ok (c_rows A) nb N1) as (R & HR0 & ER & H64 & Hblk & HR). specialize (HR SR). assert (HR1 : 1 <= R) by lia.
  assert (Hfl : forall b, b < nb -> (N.of_nat (length (ofBlk (fun r => (r / R)%nat) b (prods mul A B))) < 2 ^ 27)%N) by (intros b Hb; rewrite prods_block, ER; apply SB, Hb).
  destruct (resetCsr_ok A B iA iB iC s C0 EA EB EC Hal) as (s1 & lost & Hreset & Hs1).
  destruct (outer_end mul add A B HA HB Hin nb bw R N1 N2 W1 W2 Hblk HR0 HR1 HR SC HL Hfl top nts nth iA iB iC s s1 (cols B) lost Hnth EA EB Hreset) as (mx & _ & HU & Ms & HM & HE).
  pose proof (fun mx nthr Ms o => end_ok mul add A B HA HB Hin (fun row => Ok (blockId R row)) (fun r => (r / R)%nat) top nts iC s1 (cols B) lost (c_rows A + nb + nth + nthr * mx) Ms o HN) as Hend.
  split.
  - eexists. apply HE. apply Hend; [exact HM|reflexivity].
  - intros o Ho. destruct (HU o Ho) as (nthr & Ms' & _ & HM' & Ho'). apply Hend in Ho'; [|exact HM']. rewrite Ho'. apply merged_right; assumption.
Qed.
Print Assumptions C51_outer_partial.

(** *** Commutative, associative addition *)
Lemma sum1_perm {V} (add : V -> V -> V) l1 l2 : (forall a b, add a b = add b a) -> (forall a b c, add a (add b c) = add (add a b) c) -> l1 ≡ₚ l2 -> sum1 add l1 = sum1 add l2.
Proof.
  intros Hc Ha Hp. destruct l1 as [|x xs]; [apply Permutation_nil in Hp as ->; reflexivity|].
  destruct l2 as [|y ys]; [symmetry in Hp; apply Permutation_nil in Hp; discriminate|]. cbn [sum1]. rewrite !(fold_osum add Ha). apply (osum_perm add Hc Ha), Hp.
Qed.

Lemma outer_row_sum {V} (mul add : V -> V -> V) (A : csc V) (B : csr V) i l : (forall a b, add a b = add b a) -> (forall a b c, add a (add b c) = add (add a b) c) ->
  outer_row mul add A B i l -> forall j v, (j, v) ∈ l <-> sum1 add (outerProducts mul A B i j) = Some v.
Proof.
  intros Hc Ha (H1 & H2 & H3) j v. split.
  - intros Hv. destruct (H3 j v Hv) as (ord & Hp & Hs). rewrite <- (sum1_perm add ord _ Hc Ha Hp). exact Hs.
  - intros Hs. assert (Hj : j ∈ (fst <$> l)) by (apply H2; intros E; rewrite E in Hs; discriminate).
    apply elem_of_list_fmap in Hj as ([j' w] & -> & Hw). cbn [fst] in *. destruct (H3 j' w Hw) as (ord & Hp & Ho). rewrite (sum1_perm add ord _ Hc Ha Hp), Hs in Ho. injection Ho as ->. exact Hw.
Qed.

Lemma products_outer {V} (mul : V -> V -> V) (A : csc V) (B A' : csr V) i j : wf A' -> same_matrix A' A -> distinct_rows A' ->
  (forall k, k < c_cols A -> NoDup (fst <$> col_entries A k)) -> i < rows A' -> outerProducts mul A B i j ≡ₚ products mul (row_entries A' i) (row_entries B) j.
Proof.
  intros HA' S DA DC Hi. pose proof (sm_cols _ _ S) as ca.
  set (L := mjoin ((fun k => (fun ra : nat * V => (k, snd ra)) <$> filter (fun ra => fst ra = i) (col_entries A k)) <$> seq 0 (c_cols A))).
  assert (E : outerProducts mul A B i j = products mul L (row_entries B) j).
  { unfold outerProducts, products, L. induction (seq 0 (c_cols A)) as [|k l IH]; [reflexivity|]. rewrite !fmap_cons, !mjoin_cons, fmap_app, mjoin_app, IH. f_equal.
    rewrite <- list_fmap_compose. reflexivity. }
  rewrite E. unfold products. assert (HL : L ≡ₚ row_entries A' i); [|rewrite HL; reflexivity].
  apply NoDup_Permutation.
  - unfold L. assert (HK : forall n, n <= c_cols A -> NoDup (mjoin ((fun k => (fun ra : nat * V => (k, snd ra)) <$> filter (fun ra => fst ra = i) (col_entries A k)) <$> seq 0 n)) /\
      forall x, x ∈ mjoin ((fun k => (fun ra : nat * V => (k, snd ra)) <$> filter (fun ra => fst ra = i) (col_entries A k)) <$> seq 0 n) -> fst x < n).
    { induction n as [|n IH]; intros Hn; [split; [constructor|intros x Hx; inversion Hx]|]. destruct (IH ltac:(lia)) as [I1 I2].
      rewrite seq_S, fmap_app, mjoin_app. change (0 + n) with n. cbn [fmap list_fmap]. rewrite mjoin_cons. change (mjoin []) with (@nil (nat * V)). rewrite app_nil_r. split.
      - apply NoDup_app. split; [exact I1|]. split.
        + intros x Hx Hx'. apply I2 in Hx. apply elem_of_list_fmap in Hx' as (y & -> & _). cbn in Hx. lia.
        + specialize (DC n ltac:(lia)). induction (col_entries A n) as [|ra e IHe]; [constructor|]. rewrite fmap_cons in DC. apply NoDup_cons in DC as [D1 D2]. rewrite filter_cons.
          destruct (decide (fst ra = i)) as [Er|Er]; [|apply IHe, D2]. rewrite fmap_cons. apply NoDup_cons. split; [|apply IHe, D2].
          intros Hx. apply elem_of_list_fmap in Hx as (y & _ & Hy). apply elem_of_list_filter in Hy as [Hy1 Hy2]. apply D1, elem_of_list_fmap. exists y. split; [congruence|exact Hy2].
      - intros x Hx. apply elem_of_app in Hx as [Hx|Hx]; [specialize (I2 x Hx); lia|]. apply elem_of_list_fmap in Hx as (y & -> & _). cbn. lia. }
    apply (HK (c_cols A)); lia.
  - eapply NoDup_fmap_1, DA, Hi.
  - intros [k a]. unfold L. rewrite elem_of_list_join. split.
    + intros (l & Hx & Hl). apply elem_of_list_fmap in Hl as (k' & -> & Hk). apply elem_of_seq in Hk. apply elem_of_list_fmap in Hx as ([r v] & E2 & Hx). injection E2 as -> ->.
      apply elem_of_list_filter in Hx as [E2 Hx]. cbn in E2. subst r. apply (sm_entries _ _ S); [exact Hi|lia|exact Hx].
    + intros Hx. assert (Hk : k < cols A') by (eapply row_entries_range; eassumption).
      eexists. split; [|apply elem_of_list_fmap; exists k; split; [reflexivity|apply elem_of_seq; lia]].
      apply elem_of_list_fmap. exists (i, a). split; [reflexivity|]. apply elem_of_list_filter. split; [reflexivity|]. apply (sm_entries _ _ S); [exact Hi|exact Hk|exact Hx].
Qed.

(** What every right result is then. *)
Definition right_C {V} (mul add : V -> V -> V) (A : csc V) (B C : csr V) : Prop :=
  wf C /\ rows C = c_rows A /\ cols C = cols B /\ forall i, i < c_rows A -> outer_row mul add A B i (row_entries C i).
Lemma right_product {V} (mul add : V -> V -> V) (A : csc V) (B A' C : csr V) :
  (forall a b, add a b = add b a) -> (forall a b c, add a (add b c) = add (add a b) c) ->
  wf A' -> same_matrix A' A -> distinct_rows A' -> (forall k, k < c_cols A -> NoDup (fst <$> col_entries A k)) -> right_C mul add A B C ->
  wf C /\ rows C = rows A' /\ cols C = cols B /\ sorted_rows C /\
    (forall i j v, i < rows A' -> ((j, v) ∈ row_entries C i <-> prod_entry mul add A' B i j = Some v)) /\ forall C', right_C mul add A B C' -> C' = C.
Proof.
  intros Hc Has HA' S DA DC (HW & Hr & Hcc & Hrow). pose proof (sm_rows _ _ S) as ra. split; [exact HW|]. split; [congruence|]. split; [exact Hcc|].
  split; [intros i Hi; apply Hrow; congruence|]. split.
  - intros i j v Hi. rewrite (outer_row_sum mul add A B i _ Hc Has (Hrow i ltac:(congruence))). unfold prod_entry, entry.
    rewrite (sum1_perm add _ _ Hc Has (products_outer mul A B A' i j HA' S DA DC Hi)). reflexivity.
  - intros C' (HW' & Hr' & Hcc' & Hrow').
    rewrite (wf_assemble C HW), (wf_assemble C' HW'), Hr, Hr', Hcc, Hcc'. unfold assemble.
    assert (E : forall i, i < c_rows A -> row_entries C' i = row_entries C i).
    { intros i Hi. pose proof (Hrow i Hi) as R1. pose proof (Hrow' i Hi) as R2.
      assert (Hel : forall x, x ∈ row_entries C' i <-> x ∈ row_entries C i).
      { intros [j v]. rewrite (outer_row_sum mul add A B i _ Hc Has R1), (outer_row_sum mul add A B i _ Hc Has R2). reflexivity. }
      apply (sorted_pairs_eq V); [apply R2|apply R1|exact Hel]. }
    f_equal.
    + apply pre_ext. exact E.
    + apply list_fmap_ext. intros i x Hx. apply elem_of_list_lookup_2, elem_of_seq in Hx. apply pre_ext. intros k Hk. apply E. lia.
    + f_equal. apply rowsOf_ext. exact E.
    + f_equal. apply rowsOf_ext. exact E.
Qed.

(** All interleavings end with the same C then, and it is the product of the matrices; A' is A by rows. *)
Theorem C51_same_product_partial :
  forall V (mul add : V -> V -> V) (A : csc V) (B A' : csr V) (nb bw nth top nts iA iB iC : nat) (s : gmap nat (obj V)),
  outer_args A B nb bw nth -> outer_sizes A B nb -> (N.of_nat (c_rows A + 1) < 2 ^ 17)%N -> outer_objs A B iA iB iC s -> (iC = iB -> nnz B <> 0) ->
  (forall a b, add a b = add b a) -> (forall a b c, add a (add b c) = add (add a b) c) ->
  wf A' -> same_matrix A' A -> distinct_rows A' -> (forall k, k < c_cols A -> NoDup (fst <$> col_entries A k)) ->
  exists C, wf C /\ rows C = rows A' /\ cols C = cols B /\ sorted_rows C /\
    (forall i j v, i < rows A' -> ((j, v) ∈ row_entries C i <-> prod_entry mul add A' B i j = Some v)) /\
    forall o, Outer_outcome mul add top nts nth iA iB iC nb bw s o -> exists lost, o = Ok (<[iC := OMat C]> s, lost).
Proof.
  intros V mul add A B A' nb bw nth top nts iA iB iC s Ha Hs HN Ho Hal Hc Has HA' S DA DC.
  destruct (C51_outer_partial V mul add A B nb bw nth top nts iA iB iC s Ha Hs HN Ho Hal) as [(o0 & H0) HU].
  destruct (HU o0 H0) as (C & lost & -> & HC). exists C.
  destruct (right_product mul add A B A' C Hc Has HA' S DA DC HC) as (W & R1 & R2 & R3 & R4 & R5). do 5 (split; [assumption|]).
  intros o Ho'. destruct (HU o Ho') as (C' & lost' & -> & HC'). exists lost'. do 4 f_equal. exact (R5 C' HC').
Qed.
Print Assumptions C51_same_product_partial.

(** *** Findings *)
(** A block of 2^27 products or more: its size in bytes is more than an int holds (239). *)
Theorem C51_big_block_refuted :
  forall V (mul add : V -> V -> V) (A : csc V) (B : csr V) (nb bw nth top nts iA iB iC b : nat) (s : gmap nat (obj V)),
  outer_args A B nb bw nth -> s !! iA = Some (OCsc A) -> s !! iB = Some (OMat B) -> b < nb -> (2 ^ 27 <= N.of_nat (blockProducts A B (blockRows (c_rows A) nb) b))%N ->
  forall o, Outer_outcome mul add top nts nth iA iB iC nb bw s o <-> o = Err OutOfBounds.
Proof.
  intros V mul add A B nb bw nth top nts iA iB iC b s [HA HB Hin [N1 N2] [W1 W2] HL Hnth] EA EB Hb Hbig o.
  destruct (rowsPerBlock_ok (c_rows A) nb N1) as (R & HR0 & ER & H64 & Hblk & _).
  apply (outer_big mul add A B HA HB Hin nb bw R N1 N2 W1 W2 Hblk top nts nth iA iB iC s b o HR0 EA EB Hb). rewrite prods_block, ER. exact Hbig.
Qed.
Print Assumptions C51_big_block_refuted.

(** 2^17 - 1 rows or more: scan is asked for one more cell than nnz_by_row has, and its parallel version reads that cell. *)
Theorem C51_many_rows_refuted :
  forall V (mul add : V -> V -> V) (A : csc V) (B : csr V) (nb bw nth top nts iA iB iC : nat) (s : gmap nat (obj V)),
  outer_args A B nb bw nth -> outer_sizes A B nb -> (2 ^ 17 <= N.of_nat (c_rows A + 1))%N -> 1 <= nts <= c_rows A + 1 ->
  outer_objs A B iA iB iC s -> (iC = iB -> nnz B <> 0) ->
  forall o, Outer_outcome mul add top nts nth iA iB iC nb bw s o <-> o = Err OutOfBounds.
Proof.
  intros V mul add A B nb bw nth top nts iA iB iC s [HA HB Hin [N1 N2] [W1 W2] HL Hnth] [SB SR SC] HN Hnts (EA & EB & C0 & EC) Hal o.
  destruct (rowsPerBlock_ok (c_rows A) nb N1) as (R & HR0 & ER & H64 & Hblk & HR). specialize (HR SR). assert (HR1 : 1 <= R) by lia.
  assert (Hfl : forall b, b < nb -> (N.of_nat (length (ofBlk (fun r => (r / R)%nat) b (prods mul A B))) < 2 ^ 27)%N) by (intros b Hb; rewrite prods_block, ER; apply SB, Hb).
  destruct (resetCsr_ok A B iA iB iC s C0 EA EB EC Hal) as (s1 & lost & Hreset & Hs1).
  destruct (outer_end mul add A B HA HB Hin nb bw R N1 N2 W1 W2 Hblk HR0 HR1 HR SC HL Hfl top nts nth iA iB iC s s1 (cols B) lost Hnth EA EB Hreset) as (mx & _ & HU & Ms & HM & HE).
  pose proof (fun mx nthr Ms o => end_large A B Hin (fun row => Ok (blockId R row)) (fun r => (r / R)%nat) top nts iC s1 (cols B) lost (c_rows A + nb + nth + nthr * mx) Ms o HN Hnts) as Hend.
  split.
  - intros Ho. destruct (HU o Ho) as (nthr & Ms' & _ & _ & Ho'). apply Hend in Ho'. exact Ho'.
  - intros ->. apply HE, Hend. reflexivity.
Qed.
Print Assumptions C51_many_rows_refuted.

(** C is B itself and has no entries: make_empty sets its dimensions to 0 before B.cols is read (355, 358), and C ends up with no columns. *)
Theorem C51_alias_refuted :
  forall V (mul add : V -> V -> V) (A : csc V) (B : csr V) (nb bw nth top nts iA iB : nat) (s : gmap nat (obj V)),
  outer_args A B nb bw nth -> outer_sizes A B nb -> (N.of_nat (c_rows A + 1) < 2 ^ 17)%N -> s !! iA = Some (OCsc A) -> s !! iB = Some (OMat B) -> nnz B = 0 ->
  (exists o, Outer_outcome mul add top nts nth iA iB iB nb bw s o) /\
  forall o, Outer_outcome mul add top nts nth iA iB iB nb bw s o -> exists C lost, o = Ok (<[iB := OMat C]> s, lost) /\ rows C = c_rows A /\ cols C = 0.
Proof.
  intros V mul add A B nb bw nth top nts iA iB s [HA HB Hin [N1 N2] [W1 W2] HL Hnth] [SB SR SC] HN EA EB Hz.
  destruct (rowsPerBlock_ok (c_rows A) nb N1) as (R & HR0 & ER & H64 & Hblk & HR). specialize (HR SR). assert (HR1 : 1 <= R) by lia.
  assert (Hfl : forall b, b < nb -> (N.of_nat (length (ofBlk (fun r => (r / R)%nat) b (prods mul A B))) < 2 ^ 27)%N) by (intros b Hb; rewrite prods_block, ER; apply SB, Hb).
  destruct (resetCsr_alias A B iA iB s EA EB Hz) as (s1 & lost & Hreset & Hs1).
  destruct (outer_end mul add A B HA HB Hin nb bw R N1 N2 W1 W2 Hblk HR0 HR1 HR SC HL Hfl top nts nth iA iB iB s s1 0 lost Hnth EA EB Hreset) as (mx & _ & HU & Ms & HM & HE).
  pose proof (fun mx nthr Ms o => end_ok mul add A B HA HB Hin (fun row => Ok (blockId R row)) (fun r => (r / R)%nat) top nts iB s1 0 lost (c_rows A + nb + nth + nthr * mx) Ms o HN) as Hend.
  split.
  - eexists. apply HE. apply Hend; [exact HM|reflexivity].
  - intros o Ho. destruct (HU o Ho) as (nthr & Ms' & _ & HM' & Ho'). apply Hend in Ho'; [|exact HM']. rewrite Ho', Hs1. eexists _, _. split; [reflexivity|]. split; reflexivity.
Qed.
Print Assumptions C51_alias_refuted.

(** No blocks, or a number of blocks that is 0 as a uint16_t (219): the division of 222 is one by 0. *)
Theorem C51_no_blocks_refuted :
  forall V (mul add : V -> V -> V) (A : csc V) (B : csr V) (nblockers bw nth top nts iA iB iC : nat) (s : gmap nat (obj V)),
  (N.of_nat nblockers mod 2 ^ 16 = 0)%N -> 1 <= c_rows A -> s !! iA = Some (OCsc A) -> s !! iB = Some (OMat B) ->
  forall o, Outer_outcome mul add top nts nth iA iB iC nblockers bw s o <-> o = Err DivByZero.
Proof.
  intros V mul add A B nblockers bw nth top nts iA iB iC s Hz Hr EA EB o. unfold Outer_outcome. cbv zeta.
  assert (E : u16 nblockers = 0) by (unfold u16; rewrite Hz; reflexivity). rewrite E.
  assert (E0 : (A <- deref_csc s iA ;; B <- deref s iB ;; R <- rowsPerBlock (c_rows A) 0 ;; Ok (A, B, R)) = Err DivByZero).
  { unfold deref_csc, deref. rewrite EA, bind_Ok, EB, bind_Ok. unfold rowsPerBlock. destruct (Nat.leb_spec (c_rows A) (0 * 64)) as [L|L]; [lia|]. reflexivity. }
  rewrite E0. unfold obind at 1, only. split.
  - intros [(f & Ef & ->)|(x & Ex & _)]; [injection Ef as ->; reflexivity|discriminate].
  - intros ->. left. exists DivByZero. split; reflexivity.
Qed.
Print Assumptions C51_no_blocks_refuted.

(** flops_by_rows (226), global_blocker_counters (229), and sorting_buffer (233) with its buffers (256) are never released, nor are C's old arrays. *)
Theorem C51_leak_refuted :
  forall V (mul add : V -> V -> V) (A : csc V) (nb bw nth top nts iA iB iC : nat) (s s' : gmap nat (obj V)) lost,
  s !! iA = Some (OCsc A) -> Outer_outcome mul add top nts nth iA iB iC nb bw s (Ok (s', lost)) -> (N.of_nat nb < 2 ^ 16)%N -> c_rows A + nb + nth <= lost.
Proof.
  intros V mul add A nb bw nth top nts iA iB iC s s' lost EA Ho Hnb. unfold Outer_outcome in Ho. cbv zeta in Ho.
  assert (HI : forall X Y (P : res X -> Prop) (k : X -> res Y -> Prop) y, obind P k (Ok y) -> exists x, P (Ok x) /\ k x (Ok y)).
  { intros X Y P k y [(f & _ & E)|H]; [discriminate|exact H]. }
  apply HI in Ho as ([[A' B'] R] & E0 & Ho). unfold only in E0. unfold deref_csc in E0. rewrite EA, bind_Ok in E0.
  assert (A' = A) as ->. { destruct (deref s iB); [|discriminate]. rewrite bind_Ok in E0. destruct (rowsPerBlock _ _); [|discriminate]. rewrite bind_Ok in E0. injection E0 as -> _ _. reflexivity. }
  apply HI in Ho as (fl & _ & Ho). apply HI in Ho as (mx & _ & Ho). apply HI in Ho as ([nthr [cnts blks]] & _ & Ho). apply HI in Ho as ([ns blks'] & _ & Ho).
  apply HI in Ho as (cum & _ & Ho). apply HI in Ho as ([[[[total s1] nr] nc] l0] & _ & Ho). apply HI in Ho as ([[nbr ids] vals] & _ & Ho). apply HI in Ho as (rp & _ & Ho).
  unfold only in Ho. injection Ho as _ ->. rewrite (u16_id nb Hnb). lia.
Qed.
Print Assumptions C51_leak_refuted.

(** *** Cases *)
Lemma wf_one {V} (r c : nat) (ids : list nat) (vals : list V) : length vals = length ids -> (forall p x, ids !! p = Some x -> x < c) -> r = 1 ->
  wf (mkCsr r c (length ids) [0; length ids] ids vals).
Proof.
  intros Hl Hx ->. constructor; try reflexivity; cbn [rowptr colids values rows cols nnz]; [|exact Hl|exact Hx].
  intros [|[|i]] a b Ha Hb; cbn in Ha, Hb; [|discriminate|discriminate]. injection Ha as <-. injection Hb as <-. lia.
Qed.

(** C51_outer, C51_same_product: two columns of A and two rows of B, 100 rows in 2 blocks of 64 rows with 3 tuples, 2 threads, C is B.  Cell (70, 0) has two products. *)
Definition exoA : csc nat := mkCsc 100 2 4 [0; 2; 4] [3; 70; 70; 99] [2; 3; 5; 7].
Definition exoB : csr nat := mkCsr 2 3 3 [0; 2; 3] [0; 2; 0] [11; 13; 17].
Definition exoS : gmap nat (obj nat) := {[ 0 := OCsc exoA; 1 := OMat exoB ]}.
Example ex_outer : outer_args exoA exoB 2 3 2 /\ outer_sizes exoA exoB 2 /\ (N.of_nat (c_rows exoA + 1) < 2 ^ 17)%N /\ outer_objs exoA exoB 0 1 1 exoS /\ nnz exoB <> 0 /\
  outerProducts Nat.mul exoA exoB 70 0 = [33; 85] /\ outerProducts Nat.mul exoA exoB 70 1 = [] /\
  blockProducts exoA exoB (blockRows 100 2) 0 = 2 /\ blockProducts exoA exoB (blockRows 100 2) 1 = 4.
Proof.
  split; [|split; [|split; [reflexivity|split; [|split; [discriminate|repeat split; vm_compute; reflexivity]]]]].
  - constructor; try reflexivity; try (split; lia || reflexivity); try lia.
    + constructor; try reflexivity; cbn.
      * intros [|[|[|i]]] a b Ha Hb; cbn in Ha, Hb; try discriminate; injection Ha as <-; injection Hb as <-; lia.
      * intros [|[|[|[|p]]]] c Hp; cbn in Hp; try discriminate; injection Hp as <-; lia.
    + constructor; try reflexivity; cbn.
      * intros [|[|[|i]]] a b Ha Hb; cbn in Ha, Hb; try discriminate; injection Ha as <-; injection Hb as <-; lia.
      * intros [|[|[|p]]] c Hp; cbn in Hp; try discriminate; injection Hp as <-; lia.
  - constructor; [|vm_compute; discriminate|vm_compute; discriminate]. intros [|[|b]] Hb; [vm_compute; reflexivity|vm_compute; reflexivity|lia].
  - split; [reflexivity|]. split; [reflexivity|]. eexists. reflexivity.
Qed.
(** A by rows. *)
Definition exoA' : csr nat := mkCsr 100 2 4 (replicate 4 0 ++ replicate 67 1 ++ replicate 29 3 ++ [4]) [0; 0; 1; 1] [2; 3; 5; 7].
Example ex_outer_rows : row_entries exoA' 3 = [(0, 2)] /\ row_entries exoA' 70 = [(0, 3); (1, 5)] /\ row_entries exoA' 99 = [(1, 7)] /\ prod_entry Nat.mul Nat.add exoA' exoB 70 0 = Some 118.
Proof. vm_compute. auto. Qed.

(** C51_big_block: one row, 2^14 entries in a column of A, 2^13 in a row of B. *)
Example ex_outer_big : exists (A : csc nat) (B : csr nat), outer_args A B 1 1 1 /\ (2 ^ 27 <= N.of_nat (blockProducts A B (blockRows (c_rows A) 1) 0))%N.
Proof.
  assert (H : forall n m, let A := mkCsc 1 1 (length (replicate n 0)) [0; length (replicate n 0)] (replicate n 0) (replicate n 1) in
    let B := mkCsr 1 1 (length (replicate m 0)) [0; length (replicate m 0)] (replicate m 0) (replicate m 1) in
    outer_args A B 1 1 1 /\ blockProducts A B (blockRows (c_rows A) 1) 0 = n * m).
  { intros n m A B.
    assert (HA : wf_csc A). { apply (wf_one 1 1 (replicate n 0) (replicate n 1)); [rewrite !replicate_length; reflexivity| |reflexivity]. intros p x Hp. apply lookup_replicate in Hp as [-> _]. lia. }
    assert (HB : wf B). { apply (wf_one 1 1 (replicate m 0) (replicate m 1)); [rewrite !replicate_length; reflexivity| |reflexivity]. intros p x Hp. apply lookup_replicate in Hp as [-> _]. lia. }
    split; [constructor; try assumption; try reflexivity; try (split; lia || reflexivity); lia|].
    assert (E : filter (fun ra : nat * nat => fst ra / blockRows (c_rows A) 1 = 0) (col_entries A 0) = col_entries A 0).
    { apply filter_all. intros [r a] Hr. pose proof (row_entries_range (csc_tr A) 0 r a HA Hr) as Hlt. cbn [csc_tr cols c_rows A] in Hlt. cbn [fst]. apply Nat.div_small.
      unfold blockRows. lia. }
    assert (LA : length (col_entries A 0) = n).
    { unfold col_entries. rewrite (row_entries_length (csc_tr A) 0 0 (length (replicate n 0)) HA); [rewrite replicate_length; lia|cbn; lia|reflexivity|reflexivity]. }
    assert (LB : length (row_entries B 0) = m).
    { rewrite (row_entries_length B 0 0 (length (replicate m 0)) HB); [rewrite replicate_length; lia|cbn; lia|reflexivity|reflexivity]. }
    clearbody B. unfold blockProducts. change (seq 0 (c_cols A)) with [0]. rewrite fmap_cons. cbn [fmap list_fmap sum_list sum_list_with foldr]. unfold id. rewrite E, LA, LB. lia. }
  destruct (H (2 ^ 14) (2 ^ 13)) as [H1 H2]. eexists _, _. split; [exact H1|]. rewrite H2.
  rewrite Nat2N.inj_mul, !Nat2N.inj_pow. vm_compute. discriminate.
Qed.

(** C51_many_rows: 2^17 rows and no columns, 64 blocks. *)
Example ex_outer_rows_large : exists (A : csc nat) (B : csr nat), outer_args A B 64 1 1 /\ outer_sizes A B 64 /\ (2 ^ 17 <= N.of_nat (c_rows A + 1))%N.
Proof.
  exists (mkCsc (N.to_nat (2 ^ 17)) 0 0 [0] [] []), (mkCsr 0 1 0 [0] [] []). split; [|split].
  - constructor; try reflexivity; try (split; lia || reflexivity); try lia.
    + constructor; try reflexivity; cbn [csc_tr rowptr colids values rows cols nnz colptr rowids c_values c_rows c_cols c_nnz].
      * intros [|i] a b Ha Hb; cbn in Ha, Hb; discriminate.
      * intros p c Hp. rewrite lookup_nil in Hp. discriminate.
    + constructor; try reflexivity; cbn.
      * intros [|i] a b Ha Hb; cbn in Ha, Hb; discriminate.
      * intros p c Hp. rewrite lookup_nil in Hp. discriminate.
  - constructor; [intros b _; reflexivity| |vm_compute; discriminate]. cbn [c_rows]. rewrite N2Nat.id. vm_compute. discriminate.
  - cbn [c_rows]. rewrite Nat2N.inj_add, N2Nat.id. vm_compute. discriminate.
Qed.

(** C51_alias, C51_no_blocks, C51_leak. *)
Example ex_outer_alias : exists (A : csc nat) (B : csr nat), outer_args A B 1 1 1 /\ outer_sizes A B 1 /\ nnz B = 0 /\ cols B = 5 /\ 1 <= c_rows A.
Proof.
  exists (mkCsc 1 1 1 [0; 1] [0] [3]), (mkCsr 1 5 0 [0; 0] [] []). split; [|split; [|cbn; auto]].
  - constructor; try reflexivity; try (split; lia || reflexivity); try lia.
    + apply (wf_one 1 1 [0] [3]); try reflexivity. intros [|p] c Hp; cbn in Hp; try discriminate. injection Hp as <-. lia.
    + apply (wf_one 1 5 [] (@nil nat)); try reflexivity. intros p c Hp. rewrite lookup_nil in Hp. discriminate.
  - constructor; [|vm_compute; discriminate|vm_compute; discriminate]. intros [|b] Hb; [vm_compute; reflexivity|lia].
Qed.

(** A width of 0, or one that is 0 as a uint16_t (220): there is no room for even one tuple (275). *)
Definition exwA : csc nat := mkCsc 1 1 1 [0; 1] [0] [3].
Definition exwB : csr nat := mkCsr 1 1 1 [0; 1] [0] [5].
Theorem C51_no_width_refuted : forall bw top nts, (N.of_nat bw mod 2 ^ 16 = 0)%N ->
  Outer_outcome Nat.mul Nat.add top nts 1 0 1 1 1 bw {[ 0 := OCsc exwA; 1 := OMat exwB ]} (Err OutOfBounds).
Proof.
  intros bw top nts Hz. unfold Outer_outcome. cbv zeta. assert (E : u16 bw = 0) by (unfold u16; rewrite Hz; reflexivity). rewrite E. change (u16 1) with 1.
  right. exists (exwA, exwB, 64). split; [reflexivity|]. cbv iota beta.
  right. exists [1]. split; [exists [[0]]; split; [apply (sched_one 1)|reflexivity]|].
  right. exists 1. split; [reflexivity|].
  left. exists OutOfBounds. split; [|reflexivity]. exists [[0]], (Err OutOfBounds). split; [apply (sched_one 1)|]. split; [cbn; lia|]. split; [|reflexivity].
  eapply (fout_fault _ _ _ _ 0); [apply rtc_refl|reflexivity|reflexivity].
Qed.
Print Assumptions C51_no_width_refuted.
