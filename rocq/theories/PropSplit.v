(** C70: matrices split into pieces of rows, and the product of the halves.  Words used: [splitCsc], [splitCsr], [halves_end] (SplitModel);
    [cscOfItems_ends], [sort_contract], [triples], [triples_csc] (MatModel, MatSpec); [Outer_outcome], [outer_sizes], [outer_objs] (C51);
    [row_entries], [col_entries], [wf], [wf_csc], [prod_entry] (Spec). *)
From stdpp Require Import numbers sorting.
From Coq Require Import NArith.
From Verif Require Import BaseProofs ConcProofs Assemble MatSpec MatProofs MatStatements TriAllProofs OuterModel OuterProofs PropOuter PropMat Examples SplitModel SplitProofs.
From Verif Require Import Base Spec.

(** C70, by columns.  With at least as many rows as pieces, piece [o] has the entries of rows o * (rows / n) .. (o + 1) * (rows / n) - 1, the last piece all rows
    from there on, in the order of the matrix; together the pieces are the matrix. *)
Theorem C70_columns_partial :
  forall V (A : csc V) n, wf_csc A -> 1 <= n <= c_rows A ->
  exists ps, splitCsc A n = Ok ps /\ length ps = n /\ mjoin ps ≡ₚ triples_csc A /\
    forall o piece, ps !! o = Some piece ->
      piece = filter (fun x => o * (c_rows A / n) <= fst (fst x) /\ (fst (fst x) < (o + 1) * (c_rows A / n) \/ o + 1 = n)) (triples_csc A).
Proof.
  intros V A n Hw Hn. eexists. split; [apply splitCsc_ok; assumption|]. split; [rewrite fmap_length, seq_length; reflexivity|]. split.
  - apply (pieces_perm (fun x : nat * nat * V => Nat.min (fst (fst x) / (c_rows A / n)) (n - 1))). intros; lia.
  - set (p := c_rows A / n). assert (Hp : p <> 0) by (unfold p; pose proof (Nat.div_le_lower_bound (c_rows A) n 1 ltac:(lia) ltac:(lia)); lia).
    intros o piece Ho. assert (Hlt : o < n) by (apply lookup_lt_Some in Ho; rewrite fmap_length, seq_length in Ho; exact Ho).
    rewrite seq_fmap_lookup in Ho by exact Hlt. injection Ho as <-. apply list_filter_iff. intros [[r c] v]. cbn [fst snd].
    pose proof (Nat.div_mod r p Hp). pose proof (Nat.mod_upper_bound r p Hp). set (q := r / p) in *. split.
    + intros <-. split; [nia|]. destruct (decide (q < n - 1)); [left|right; lia]. rewrite Nat.min_l by lia. nia.
    + intros [H1 [H2|H2]]; [|assert (o <= q) by nia; lia]. assert (q = o) by nia. lia.
Qed.
Print Assumptions C70_columns_partial.
(** Seven rows in three pieces: two, two and three rows. *)
Definition ex_split : csc Z := mkCsc 7 2 5 [0; 3; 5] [0; 3; 6; 2; 4] [1; 2; 3; 4; 5]%Z.
Example ex_C70_columns : wf_csc ex_split /\ 1 <= 3 <= c_rows ex_split /\
  splitCsc ex_split 3 = Ok [[(0, 0, 1%Z)]; [(3, 0, 2%Z); (2, 1, 4%Z)]; [(6, 0, 3%Z); (4, 1, 5%Z)]].
Proof. split; [prove_wf|]. split; [cbn; lia|reflexivity]. Qed.

(** With fewer rows than pieces the first entry ends in a division by zero (42, 48). *)
Theorem C70_few_rows_refuted :
  forall V (A : csc V) n, wf_csc A -> 1 <= n -> c_rows A < n -> c_nnz A <> 0 -> splitCsc A n = Err DivByZero.
Proof.
  intros V A n Hw Hn Hr Hz. rewrite (splitCsc_fold A n 0 Hw Hn) by (symmetry; apply Nat.div_small; exact Hr).
  destruct (triples (csc_tr A)) as [|x l] eqn:E; [|reflexivity]. exfalso. apply Hz.
  pose proof (wf_assemble (csc_tr A) Hw) as EA. apply (f_equal nnz) in EA. cbn [csc_tr nnz] in EA. rewrite EA. clear EA. cbn [assemble nnz].
  unfold triples in E. apply (f_equal length) in E. rewrite mjoin_length in E. cbn [length] in E. unfold pre. etransitivity; [|exact E].
  rewrite <- list_fmap_compose. f_equal. apply list_fmap_ext. intros i k _. unfold compose. rewrite fmap_length. reflexivity.
Qed.
Print Assumptions C70_few_rows_refuted.
Example ex_C70_few_rows : wf_csc (mkCsc 1 2 1 [0; 1; 1] [0] [5%Z]) /\ splitCsc (mkCsc 1 2 1 [0; 1; 1] [0] [5%Z]) 2 = Err DivByZero.
Proof. split; [prove_wf|reflexivity]. Qed.

(** C70, by rows.  If the rows are n times cols / n, piece [o] has the entries of rows o * p .. (o + 1) * p - 1, numbered from 0. *)
Theorem C70_rows_partial :
  forall V (A : csr V) n p, wf A -> 1 <= n -> p = cols A / n -> p <> 0 -> rows A = n * p ->
  splitCsr A n = Ok ((fun o => mjoin ((fun i => (fun e => (i, fst e, snd e)) <$> row_entries A (o * p + i)) <$> seq 0 p)) <$> seq 0 n).
Proof. intros V A n p. apply splitCsr_pieces. Qed.
Print Assumptions C70_rows_partial.

Section Halves.
Context {V : Type} (ltV : V -> V -> Prop) (dflt : V) (stdsort : list (nat * V) -> list (nat * V)) (Hs : sort_contract ltV stdsort).

Lemma halves_split (A : csr V) p : wf A -> p = cols A / 2 -> p <> 0 -> rows A = 2 * p ->
  splitCsr A 2 = Ok [mjoin ((fun i => (fun e => (i, fst e, snd e)) <$> row_entries A (0 + i)) <$> seq 0 p);
                     mjoin ((fun i => (fun e => (i, fst e, snd e)) <$> row_entries A (p + i)) <$> seq 0 p)].
Proof. intros Hw Ep Hp Hr. rewrite (splitCsr_pieces A 2 p Hw ltac:(lia) Ep Hp Hr). cbn [seq fmap list_fmap]. rewrite Nat.mul_1_l. reflexivity. Qed.

Lemma half_range (A : csr V) o p : wf A ->
  Forall (fun x : nat * nat * V => fst (fst x) < p /\ snd (fst x) < cols A) (mjoin ((fun i => (fun e => (i, fst e, snd e)) <$> row_entries A (o + i)) <$> seq 0 p)).
Proof.
  intros Hw. apply Forall_forall. intros x Hx. apply elem_of_list_join in Hx as (l & Hx & Hl). apply elem_of_list_fmap in Hl as (i & -> & Hi). apply elem_of_seq in Hi.
  apply elem_of_list_fmap in Hx as ([c v] & -> & He). cbn [fst snd]. split; [lia|eapply row_entries_range; eassumption].
Qed.

Lemma halves_known (A : csr V) p : wf A -> distinct_rows A -> p = cols A / 2 -> p <> 0 -> rows A = 2 * p ->
  exists L R, (forall L' R', halves_end dflt stdsort A L' R' <-> L' = L /\ R' = R) /\
    (wf_csc L /\ c_rows L = p /\ c_cols L = cols A /\
      triples_csc L ≡ₚ mjoin ((fun i => (fun e => (i, fst e, snd e)) <$> row_entries A (0 + i)) <$> seq 0 p)) /\
    (wf_csc R /\ c_rows R = p /\ c_cols R = cols A /\
      triples_csc R ≡ₚ mjoin ((fun i => (fun e => (i, fst e, snd e)) <$> row_entries A (p + i)) <$> seq 0 p)) /\
    (forall j, j < cols A -> StronglySorted le (fst <$> col_entries L j) /\ StronglySorted le (fst <$> col_entries R j)).
Proof.
  intros Hw Hd Ep Hp Hr. assert (Hr2 : rows A / 2 = p) by (rewrite Hr, Nat.mul_comm, Nat.div_mul; lia).
  destruct (cscOfItems_correct ltV stdsort Hs dflt _ p (cols A) (half_range A 0 p Hw)) as (L & L1 & L2 & _ & L3 & L4 & L5 & L6 & L7).
  destruct (cscOfItems_correct ltV stdsort Hs dflt _ p (cols A) (half_range A p p Hw)) as (R & R1 & R2 & _ & R3 & R4 & R5 & R6 & R7).
  exists L, R. split; [|split; [auto|split; [auto|intros j Hj; split; [apply L7|apply R7]; exact Hj]]].
  intros L' R'. unfold halves_end. rewrite (halves_split A p Hw Ep Hp Hr), Hr2. split.
  - intros (l & r & E & HL & HR). injection E as <- <-. split; [apply L2, HL|apply R2, HR].
  - intros [-> ->]. eexists _, _. split; [reflexivity|]. auto.
Qed.
End Halves.

(** C70, halves.  For a matrix with 2 * p rows, where p = cols / 2, and distinct positions, the two constructors always end in the same two matrices, which are the upper and
    the lower half of the matrix. *)
Theorem C70_halves_partial :
  forall V (ltV : V -> V -> Prop) (dflt : V) (stdsort : list (nat * V) -> list (nat * V)), sort_contract ltV stdsort ->
  forall (A : csr V) p, wf A -> distinct_rows A -> p = cols A / 2 -> p <> 0 -> rows A = 2 * p ->
  exists L R, (forall L' R', halves_end dflt stdsort A L' R' <-> L' = L /\ R' = R) /\
    (wf_csc L /\ c_rows L = p /\ c_cols L = cols A) /\ (wf_csc R /\ c_rows R = p /\ c_cols R = cols A) /\
    (forall i j v, i < p -> j < cols A -> (i, v) ∈ col_entries L j <-> (j, v) ∈ row_entries A i) /\
    (forall i j v, i < p -> j < cols A -> (i, v) ∈ col_entries R j <-> (j, v) ∈ row_entries A (p + i)) /\
    (forall j, j < cols A -> StronglySorted lt (fst <$> col_entries L j) /\ StronglySorted lt (fst <$> col_entries R j)).
Proof.
  intros V ltV dflt stdsort Hs A p Hw Hd Ep Hp Hr.
  destruct (halves_known ltV dflt stdsort Hs A p Hw Hd Ep Hp Hr) as (L & R & HU & (L1 & L2 & L3 & L4) & (R1 & R2 & R3 & R4) & HS).
  destruct (part_same A 0 p L Hw ltac:(lia) Hd L1 L2 L3 L4) as (LW & LS & _ & LN).
  destruct (part_same A p p R Hw ltac:(lia) Hd R1 R2 R3 R4) as (RW & RS & _ & RN).
  exists L, R. split; [exact HU|]. split; [auto|]. split; [auto|]. split; [|split].
  - intros i j v Hi Hj. rewrite <- (sm_entries _ _ LS i j v Hi Hj). rewrite assemble_row by exact Hi. reflexivity.
  - intros i j v Hi Hj. rewrite <- (sm_entries _ _ RS i j v Hi Hj). rewrite assemble_row by exact Hi. reflexivity.
  - intros j Hj. destruct (HS j Hj) as [S1 S2]. split; apply ss_le_lt; [exact S1|apply LN; congruence|exact S2|apply RN; congruence].
Qed.
Print Assumptions C70_halves_partial.

(** C70, product.  C_csr_left and C_csr_right are then the upper and the lower half of A * B, whatever the interleavings, within the sizes of C51. *)
Theorem C70_product_partial :
  forall V (ltV : V -> V -> Prop) (dflt : V) (stdsort : list (nat * V) -> list (nat * V)), sort_contract ltV stdsort ->
  forall (mul add : V -> V -> V), (forall a b, add a b = add b a) -> (forall a b c, add a (add b c) = add (add a b) c) ->
  forall (A B : csr V) p, wf A -> distinct_rows A -> p = cols A / 2 -> p <> 0 -> rows A = 2 * p -> wf B -> cols A = rows B -> (N.of_nat (p + 1) < 2 ^ 17)%N ->
  forall (nb bw : nat), 1 <= nb -> (N.of_nat nb < 2 ^ 16)%N -> 1 <= bw -> (N.of_nat bw < 2 ^ 16)%N -> (N.of_nat nb * N.of_nat bw < 2 ^ 27)%N ->
  forall L R, halves_end dflt stdsort A L R -> outer_sizes L B nb -> outer_sizes R B nb ->
  exists CL CR, (wf CL /\ rows CL = p /\ cols CL = cols B /\ sorted_rows CL) /\ (wf CR /\ rows CR = p /\ cols CR = cols B /\ sorted_rows CR) /\
    (forall i j v, i < p -> (j, v) ∈ row_entries CL i <-> prod_entry mul add A B i j = Some v) /\
    (forall i j v, i < p -> (j, v) ∈ row_entries CR i <-> prod_entry mul add A B (p + i) j = Some v) /\
    forall nth top nts iA iB iC s, 1 <= nth -> iC <> iB ->
      (outer_objs L B iA iB iC s ->
        (exists o, Outer_outcome mul add top nts nth iA iB iC nb bw s o) /\
        forall o, Outer_outcome mul add top nts nth iA iB iC nb bw s o -> exists lost, o = Ok (<[iC := OMat CL]> s, lost)) /\
      (outer_objs R B iA iB iC s ->
        (exists o, Outer_outcome mul add top nts nth iA iB iC nb bw s o) /\
        forall o, Outer_outcome mul add top nts nth iA iB iC nb bw s o -> exists lost, o = Ok (<[iC := OMat CR]> s, lost)).
Proof.
  intros V ltV dflt stdsort Hs mul add Hc Has A B p Hw Hd Ep Hp Hr HB Hin HN nb bw N1 N2 W1 W2 HL L R HE SL SR.
  destruct (halves_known ltV dflt stdsort Hs A p Hw Hd Ep Hp Hr) as (L' & R' & HU & (L1 & L2 & L3 & L4) & (R1 & R2 & R3 & R4) & _).
  apply HU in HE as [-> ->].
  assert (Part : forall o (X : csc V), o + p <= rows A -> wf_csc X -> c_rows X = p -> c_cols X = cols A ->
    triples_csc X ≡ₚ mjoin ((fun i => (fun e => (i, fst e, snd e)) <$> row_entries A (o + i)) <$> seq 0 p) -> outer_sizes X B nb ->
    exists C, (wf C /\ rows C = p /\ cols C = cols B /\ sorted_rows C) /\ (forall i j v, i < p -> (j, v) ∈ row_entries C i <-> prod_entry mul add A B (o + i) j = Some v) /\
      forall nth top nts iA iB iC s, 1 <= nth -> iC <> iB -> outer_objs X B iA iB iC s ->
        (exists o, Outer_outcome mul add top nts nth iA iB iC nb bw s o) /\
        forall o, Outer_outcome mul add top nts nth iA iB iC nb bw s o -> exists lost, o = Ok (<[iC := OMat C]> s, lost)).
  { intros o X Ho X1 X2 X3 X4 SX. destruct (part_same A o p X Hw Ho Hd X1 X2 X3 X4) as (XW & XS & XD & XN).
    assert (OA : forall nth, 1 <= nth -> outer_args X B nb bw nth) by (intros nth Hn; constructor; auto; congruence).
    assert (OB : outer_objs X B 0 1 2 {[0 := OCsc X; 1 := OMat B; 2 := OMat B]}) by (split; [reflexivity|]; split; [reflexivity|]; eexists; reflexivity).
    destruct (C51_outer_partial V mul add X B nb bw 1 0 0 0 1 2 _ (OA 1 ltac:(lia)) SX ltac:(rewrite X2; exact HN) OB ltac:(lia)) as [(o0 & H0) HU0].
    destruct (HU0 o0 H0) as (C & lost & _ & HC). destruct (right_product mul add X B _ C Hc Has XW XS XD XN HC) as (C1 & C2 & C3 & C4 & C5 & C6).
    exists C. split; [auto|]. split.
    - intros i j v Hi. rewrite (C5 i j v Hi). unfold prod_entry. rewrite (assemble_row (fun i => row_entries A (o + i)) p (cols A) i Hi). reflexivity.
    - intros nth top nts iA iB iC s Hn HiC Hos.
      destruct (C51_outer_partial V mul add X B nb bw nth top nts iA iB iC s (OA nth Hn) SX ltac:(rewrite X2; exact HN) Hos ltac:(intros; contradiction)) as [HX1 HX2].
      split; [exact HX1|]. intros o' Ho'. destruct (HX2 o' Ho') as (C' & lost' & -> & HC'). exists lost'. rewrite (C6 C' HC'). reflexivity. }
  destruct (Part 0 L' ltac:(lia) L1 L2 L3 L4 SL) as (CL & CL1 & CL2 & CL3).
  destruct (Part p R' ltac:(lia) R1 R2 R3 R4 SR) as (CR & CR1 & CR2 & CR3).
  exists CL, CR. split; [exact CL1|]. split; [exact CR1|]. split; [exact CL2|]. split; [exact CR2|].
  intros nth top nts iA iB iC s Hn HiC. split; [apply CL3|apply CR3]; assumption.
Qed.
Print Assumptions C70_product_partial.

(** *** Findings *)
(** Rows from 2 * p on: they go into the right half, where row i becomes row i mod p (66, 70), and another row is there already. *)
Theorem C70_tall_refuted :
  forall V (A : csr V) p i c v, wf A -> p = cols A / 2 -> p <> 0 -> 2 * p <= i < rows A -> (c, v) ∈ row_entries A i ->
  exists l r, splitCsr A 2 = Ok [l; r] /\ (i mod p, c, v) ∈ r /\ forall c' v', (c', v') ∈ row_entries A (p + i mod p) -> (i mod p, c', v') ∈ r.
Proof.
  intros V A p i c v Hw Ep Hp Hi Hx. rewrite (splitCsr_ok A 2 p Hw ltac:(lia) Ep Hp). cbn [seq fmap list_fmap]. eexists _, _. split; [reflexivity|].
  assert (Hin : forall i c v, p <= i < rows A -> (c, v) ∈ row_entries A i -> (i mod p, c, v) ∈ rowsAs A (fun i => i mod p) (filter (fun i => Nat.min (i / p) (2 - 1) = 1) (seq 0 (rows A)))).
  { clear - Hp. intros i c v Hi Hx. unfold rowsAs. apply elem_of_list_join. eexists. split; [|apply elem_of_list_fmap; exists i; split; [reflexivity|]].
    - apply elem_of_list_fmap. exists (c, v). auto.
    - apply elem_of_list_filter. split; [|apply elem_of_seq; lia]. pose proof (Nat.div_le_lower_bound i p 1 Hp ltac:(lia)). lia. }
  split; [apply Hin; [lia|exact Hx]|]. intros c' v' Hx'. pose proof (Nat.mod_upper_bound i p Hp).
  assert (E : i mod p = (p + i mod p) mod p). { replace (p + i mod p) with (i mod p + 1 * p) by lia. rewrite Nat.mod_add, Nat.mod_mod by exact Hp. reflexivity. }
  rewrite E. apply Hin; [lia|exact Hx'].
Qed.
Print Assumptions C70_tall_refuted.
(** Three rows and columns: row 2 falls on row 1. *)
Example ex_C70_tall : let A := mkCsr 3 3 3 [0; 1; 2; 3] [0; 1; 2] [5; 6; 7]%Z in wf A /\ splitCsr A 2 = Ok [[(0, 0, 5%Z)]; [(0, 1, 6%Z); (0, 2, 7%Z)]].
Proof. split; [prove_wf|reflexivity]. Qed.

(** At most cols / 2 rows: everything goes into the left half, which has too few rows (63, NUMA-aware.cpp 83). *)
Theorem C70_wide_refuted :
  forall V (ltV : V -> V -> Prop) (dflt : V) (stdsort : list (nat * V) -> list (nat * V)), sort_contract ltV stdsort ->
  forall (A : csr V) i c v, wf A -> rows A <= cols A / 2 -> rows A / 2 <= i < rows A -> (c, v) ∈ row_entries A i ->
  (exists L R, halves_end dflt stdsort A L R) /\ forall L R, halves_end dflt stdsort A L R -> ~ wf_csc L /\ c_nnz R = 0.
Proof.
  intros V ltV dflt stdsort Hs A i c v Hw Hr Hi Hx.
  assert (ES : splitCsr A 2 = Ok [triples A; []]).
  { rewrite (splitCsr_ok A 2 (cols A / 2) Hw ltac:(lia) eq_refl ltac:(lia)). cbn [seq fmap list_fmap]. do 2 f_equal; [|f_equal].
    - rewrite filter_every by (intros k Hk; apply elem_of_seq in Hk; rewrite (Nat.div_small k) by lia; reflexivity). unfold rowsAs, triples. f_equal. apply list_fmap_ext.
      intros k x Hk. apply lookup_seq in Hk as [-> Hk]. apply list_fmap_ext. intros _ e _. rewrite Nat.mod_small by lia. reflexivity.
    - rewrite filter_none by (intros k Hk; apply elem_of_seq in Hk; rewrite (Nat.div_small k) by lia; rewrite Nat.min_0_l; lia). reflexivity. }
  assert (HT : Forall (fun x : nat * nat * V => fst (fst x) < rows A /\ snd (fst x) < cols A) (triples A)) by exact (half_range A 0 (rows A) Hw).
  destruct (cscOfItems_correct ltV stdsort Hs dflt (triples A) (rows A) (cols A) HT) as (X & X1 & X2 & _ & X3 & X4 & X5 & X6 & _).
  destruct (cscOfItems_correct ltV stdsort Hs dflt [] (rows A / 2) (cols A) ltac:(constructor)) as (Y & Y1 & _).
  split.
  - exists (mkCsc (rows A / 2) (c_cols X) (c_nnz X) (colptr X) (rowids X) (c_values X)), Y, (triples A), []. split; [exact ES|]. split; [|exact Y1].
    destruct X1 as (E1 & E2 & E3 & E4). split; [reflexivity|]. split; [exact E2|]. split; [exact E3|]. exact E4.
  - intros L R (l & r & E & HL & HR). rewrite ES in E. injection E as <- <-. split; [|apply HR]. intros HWL.
    assert (EX : mkCsc (rows A) (c_cols L) (c_nnz L) (colptr L) (rowids L) (c_values L) = X).
    { apply X2. destruct HL as (E1 & E2 & E3 & E4). split; [reflexivity|]. split; [exact E2|]. split; [exact E3|]. exact E4. }
    assert (Hin : (i, c, v) ∈ triples_csc X).
    { rewrite X6. unfold triples. apply elem_of_list_join. eexists. split; [|apply elem_of_list_fmap; exists i; split; [reflexivity|apply elem_of_seq; lia]].
      apply elem_of_list_fmap. exists (c, v). auto. }
    apply triples_elem in Hin; [|exact X3]. rewrite <- EX in Hin.
    pose proof (row_entries_range (csc_tr L) c i v HWL Hin) as Hlt. cbn [csc_tr cols] in Hlt. destruct HL as (E1 & _). rewrite E1 in Hlt. lia.
Qed.
Print Assumptions C70_wide_refuted.
Example ex_C70_wide : let A := mkCsr 2 4 2 [0; 1; 2] [0; 3] [5; 6]%Z in
  sort_contract Z.lt (merge_sort zle) /\ wf A /\ rows A <= cols A / 2 /\ rows A / 2 <= 1 < rows A /\ (3, 6%Z) ∈ row_entries A 1 /\
  splitCsr A 2 = Ok [[(0, 0, 5%Z); (1, 3, 6%Z)]; []].
Proof. split; [apply merge_sort_contract|]. split; [prove_wf|]. split; [cbn; lia|]. split; [cbn; lia|]. split; [cbn; left|reflexivity]. Qed.

(** Fewer columns than pieces: a division by zero, even without entries (63, 66). *)
Theorem C70_narrow_refuted :
  forall V (A : csr V) n, cols A < n -> 1 <= rows A -> splitCsr A n = Err DivByZero.
Proof.
  intros V A n Hc Hr. unfold splitCsr, divIT at 1. destruct (Nat.eqb_spec n 0) as [->|_]; [lia|]. cbn [bind]. rewrite Nat.div_small by exact Hc.
  unfold for_. rewrite Nat.sub_0_r. destruct (rows A) as [|m]; [lia|]. reflexivity.
Qed.
Print Assumptions C70_narrow_refuted.
Example ex_C70_narrow : splitCsr (mkCsr 2 1 2 [0; 1; 2] [0; 0] [5; 6]%Z) 2 = Err DivByZero.
Proof. reflexivity. Qed.

(** *** Cases *)
(** C70_rows, C70_halves, C70_product: a 4 by 4 matrix, and as B a matrix with two columns. *)
Definition exhA : csr Z := mkCsr 4 4 6 [0; 2; 3; 5; 6] [0; 3; 1; 0; 2; 3] [1; 2; 3; 4; 5; 6]%Z.
Definition exhB : csr Z := mkCsr 4 2 4 [0; 1; 2; 3; 4] [0; 1; 0; 1] [10; 20; 30; 40]%Z.
Definition exhL : csc Z := mkCsc 2 4 3 [0; 1; 2; 2; 3] [0; 1; 0] [1; 3; 2]%Z.
Definition exhR : csc Z := mkCsc 2 4 3 [0; 1; 1; 2; 3] [0; 0; 1] [4; 5; 6]%Z.
Example ex_C70_rows : wf exhA /\ 2 = cols exhA / 2 /\ rows exhA = 2 * 2 /\ distinct_rows exhA /\
  splitCsr exhA 2 = Ok [[(0, 0, 1%Z); (0, 3, 2%Z); (1, 1, 3%Z)]; [(0, 0, 4%Z); (0, 2, 5%Z); (1, 3, 6%Z)]].
Proof. split; [prove_wf|]. split; [reflexivity|]. split; [reflexivity|]. split; [prove_distinct|reflexivity]. Qed.
Lemma zsort : sort_contract Z.lt (merge_sort zle). Proof. apply merge_sort_contract. Qed.
Lemma exh_eq (X Y : csc Z) (A : csr Z) o : wf_csc X -> wf_csc Y -> c_rows X = 2 -> c_rows Y = 2 -> c_cols X = 4 -> c_cols Y = 4 ->
  (forall j, j < 4 -> StronglySorted lt (fst <$> col_entries X j)) -> (forall j, j < 4 -> StronglySorted lt (fst <$> col_entries Y j)) ->
  (forall i j v, i < 2 -> j < 4 -> (i, v) ∈ col_entries X j <-> (j, v) ∈ row_entries A (o + i)) ->
  (forall i j v, i < 2 -> j < 4 -> (i, v) ∈ col_entries Y j <-> (j, v) ∈ row_entries A (o + i)) -> X = Y.
Proof.
  intros HX HY X1 Y1 X2 Y2 SX SY EX EY.
  assert (E : csc_tr X = csc_tr Y).
  { apply wf_ext; [exact HX|exact HY|cbn; congruence|cbn; congruence|]. intros j Hj. cbn in Hj. rewrite X2 in Hj. apply (IsectProofs.sorted_pairs_eq Z); [apply SX, Hj|apply SY, Hj|].
    intros [i v]. split; intros Hi.
    - pose proof (row_entries_range _ _ _ _ HX Hi) as Hlt. cbn in Hlt. rewrite X1 in Hlt. apply (EY i j v Hlt Hj), (EX i j v Hlt Hj), Hi.
    - pose proof (row_entries_range _ _ _ _ HY Hi) as Hlt. cbn in Hlt. rewrite Y1 in Hlt. apply (EX i j v Hlt Hj), (EY i j v Hlt Hj), Hi. }
  destruct X, Y. unfold csc_tr in E. cbn in E. congruence.
Qed.
Ltac both_lists := match goal with |- (?a ∈ ?x) <-> (?b ∈ ?y) => let x' := eval vm_compute in x in let y' := eval vm_compute in y in change ((a ∈ x') <-> (b ∈ y')) end;
  rewrite ?elem_of_cons, ?elem_of_nil; intuition congruence.
Example ex_C70_halves : sort_contract Z.lt (merge_sort zle) /\ halves_end 0%Z (merge_sort zle) exhA exhL exhR.
Proof.
  split; [exact zsort|].
  destruct ex_C70_rows as (H1 & H2 & H3 & H4 & _).
  destruct (C70_halves_partial Z Z.lt 0%Z _ zsort exhA 2 H1 H4 H2 ltac:(lia) H3) as (L & R & HU & (L1 & L2 & L3) & (R1 & R2 & R3) & HL & HR & HS).
  apply HU. split; symmetry.
  - apply (exh_eq L exhL exhA 0 L1 ltac:(prove_wf) L2 eq_refl L3 eq_refl (fun j Hj => proj1 (HS j Hj))); [|exact HL|].
    + intros [|[|[|[|j]]]] Hj; [..|lia]; vm_compute; repeat constructor.
    + intros [|[|i]] [|[|[|[|j]]]] v Hi Hj; try lia; both_lists.
  - apply (exh_eq R exhR exhA 2 R1 ltac:(prove_wf) R2 eq_refl R3 eq_refl (fun j Hj => proj2 (HS j Hj))); [|exact HR|].
    + intros [|[|[|[|j]]]] Hj; [..|lia]; vm_compute; repeat constructor.
    + intros [|[|i]] [|[|[|[|j]]]] v Hi Hj; try lia; both_lists.
Qed.
Example ex_C70_product : wf exhB /\ cols exhA = rows exhB /\ outer_sizes exhL exhB 1 /\ outer_sizes exhR exhB 1 /\
  outer_objs exhL exhB 0 1 2 {[0 := OCsc exhL; 1 := OMat exhB; 2 := OMat exhB]} /\
  prod_entry Z.mul Z.add exhA exhB 0 0 = Some 10%Z /\ prod_entry Z.mul Z.add exhA exhB 2 0 = Some 190%Z.
Proof.
  split; [prove_wf|]. split; [reflexivity|].
  split; [constructor; [intros [|b] Hb; [vm_compute; reflexivity|lia]|vm_compute; discriminate|vm_compute; discriminate]|].
  split; [constructor; [intros [|b] Hb; [vm_compute; reflexivity|lia]|vm_compute; discriminate|vm_compute; discriminate]|].
  split; [split; [reflexivity|split; [reflexivity|eexists; reflexivity]]|]. split; reflexivity.
Qed.
