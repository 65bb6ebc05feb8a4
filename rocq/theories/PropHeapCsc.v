(** C49: HeapSpGEMM of heap_mult.h, on compressed columns.  Words used: [HeapCsc_ends] (HeapCscModel: the call always
    ends, whatever the interleaving, with these objects, having lost so many cells of the old C); [col_entries],
    [wf_csc], [sorted_cols], [same_matrix], [prod_entry], [sum1] (Spec). *)
From stdpp Require Import numbers.
From Coq Require Import NArith ZArith.
From Verif Require Import KernelBase BaseProofs ComplProofs InnerProofs McaProofs HeapStatements ConcProofs ScanProofs WorkModel WorkProofs Assemble DriverModel ParProofs MatStatements IsectProofs
  LegacyScanModel LegacyScanProofs TwoPassModel TwoPassProofs BinProofs AlgProofs HeapModel HeapImplProofs HeapImplStuck PropHeapImpl HeapCscModel HeapCscRowProofs HeapCscProofs Examples PropInner.
From Verif Require Import Base Spec.

(** The products that make up cell (i, j) of A*B: [mul a b] for (k, b) in column j of B and (i, a) in column k of A. *)
Definition cellProducts {V} (mul : V -> V -> V) (A B : csc V) (i j : nat) : list V :=
  mjoin ((fun kb => (fun ia => mul (snd ia) (snd kb)) <$> filter (fun ia => fst ia = i) (col_entries A (fst kb))) <$> col_entries B j).

(** [l] is column [j] of A*B: the rows that have a product, in increasing order, each value the sum of its products
    in some order (a new product is added on the left). *)
Definition full_col {V} (mul add : V -> V -> V) (A B : csc V) (j : nat) (l : list (nat * V)) : Prop :=
  StronglySorted lt (fst <$> l) /\ (forall i, i ∈ (fst <$> l) <-> cellProducts mul A B i j <> []) /\
  forall i v, (i, v) ∈ l -> exists x xs, x :: xs ≡ₚ cellProducts mul A B i j /\ v = fold_left (fun s y => add y s) xs x.

(** The call, given objects that hold A and B and any C0 that it writes to, always ends with [C] in the place of C0 and every other
    object as before, for every number of threads.  C0 may be A or B itself, unless that has no entries. *)
Definition yieldsHC {V} (mul add : V -> V -> V) (dflt : V) (A B C : csc V) : Prop :=
  forall (top nts nt iA iB iC : nat) (C0 : csc V) (s : gmap nat (obj V)), 1 <= nt ->
    s !! iA = Some (OCsc A) -> s !! iB = Some (OCsc B) -> s !! iC = Some (OCsc C0) ->
    (iC = iA -> c_nnz A <> 0) -> (iC = iB -> c_nnz B <> 0) ->
    exists lost, HeapCsc_ends mul add dflt top nts nt iA iB iC s (<[iC := OCsc C]> s) lost /\
    forall s' lost', HeapCsc_ends mul add dflt top nts nt iA iB iC s s' lost' -> s' = <[iC := OCsc C]> s /\ lost' = lost.

Section St.
Context {V : Type} (mul add : V -> V -> V) (A B : csc V).

Lemma deref_csc_Some (s : gmap nat (obj V)) i X : s !! i = Some (OCsc X) -> deref_csc s i = Ok X.
Proof. intros E. unfold deref_csc. rewrite E. reflexivity. Qed.

(** The cells of C0 that are lost. *)
Definition lostOf (C0 : csc V) : nat :=
  (if (c_nnz C0 =? 0) && negb (c_cols C0 =? 0) then 0 else length (colptr C0)) + length (rowids C0) + length (c_values C0).

Lemma resetC_ok iA iB iC (s : gmap nat (obj V)) C0 : s !! iA = Some (OCsc A) -> s !! iB = Some (OCsc B) -> s !! iC = Some (OCsc C0) ->
  (iC = iA -> c_nnz A <> 0) -> (iC = iB -> c_nnz B <> 0) ->
  exists s1, resetC iA iB iC s = Ok (s1, c_rows A, c_cols B, lostOf C0) /\ forall o, <[iC := o]> s1 = <[iC := o]> s.
Proof.
  intros EA EB EC H1 H2. unfold resetC. rewrite (deref_csc_Some _ _ _ EC), bind_Ok. cbv zeta.
  set (s0 := if c_nnz C0 =? 0 then _ else s).
  assert (E0 : (c_nnz C0 =? 0) = false /\ s0 = s \/ (c_nnz C0 =? 0) = true /\ s0 = <[iC := OCsc (mkCsc 0 0 (c_nnz C0) [] (rowids C0) (c_values C0))]> s).
  { unfold s0. destruct (c_nnz C0 =? 0); [right|left]; split; reflexivity. }
  assert (EA0 : exists A1, deref_csc s0 iA = Ok A1 /\ c_rows A1 = c_rows A).
  { exists A. split; [|reflexivity]. apply deref_csc_Some. destruct E0 as [[_ ->]|[Ez ->]]; [exact EA|].
    rewrite lookup_insert_ne; [exact EA|]. intros ->. rewrite EA in EC. injection EC as ->. apply Nat.eqb_eq in Ez. exact (H1 eq_refl Ez). }
  destruct EA0 as (A1 & -> & ER). rewrite bind_Ok.
  assert (EC0 : exists C1, deref_csc s0 iC = Ok C1).
  { destruct E0 as [[_ ->]|[_ ->]]; eexists; apply deref_csc_Some; [exact EC|apply lookup_insert]. }
  destruct EC0 as (C1 & EC1). rewrite EC1, bind_Ok. rewrite ER.
  set (s1 := <[iC := _]> s0).
  assert (EB1 : exists B1, deref_csc s1 iB = Ok B1 /\ c_cols B1 = c_cols B).
  { unfold s1. destruct (decide (iC = iB)) as [->|Hne].
    - eexists. split; [apply deref_csc_Some, lookup_insert|]. cbn [c_cols]. rewrite EB in EC. injection EC as <-.
      destruct E0 as [[_ Es]|[Ez _]]; [|apply Nat.eqb_eq in Ez; exfalso; apply (H2 eq_refl), Ez]. rewrite Es, (deref_csc_Some _ _ _ EB) in EC1. injection EC1 as <-. reflexivity.
    - exists B. split; [|reflexivity]. apply deref_csc_Some. rewrite lookup_insert_ne by exact Hne.
      destruct E0 as [[_ ->]|[_ ->]]; [exact EB|]. rewrite lookup_insert_ne by exact Hne. exact EB. }
  destruct EB1 as (B1 & -> & EBc). rewrite bind_Ok, EBc.
  rewrite (deref_csc_Some s1 iC _ ltac:(unfold s1; apply lookup_insert)), bind_Ok. cbn [c_rows].
  eexists. split; [reflexivity|]. intros o. unfold s1. rewrite insert_insert. destruct E0 as [[_ ->]|[_ ->]]; [reflexivity|apply insert_insert].
Qed.

Lemma lin_full_col j l : lin_row (fun b a => mul a b) add (csc_tr B) (csc_tr A) j l -> full_col mul add A B j l.
Proof.
  intros H. apply lin_full in H as (H1 & H2 & H3). split; [exact H1|]. split; [exact H2|].
  intros i v Hv. destruct (H3 i v Hv) as (ord & Hp & Ho). destruct ord as [|x xs]; [contradiction|]. exists x, xs. split; [exact Hp|exact Ho].
Qed.

Lemma cellProducts_rows i j : wf_csc A -> cellProducts mul A B i j <> [] -> i < c_rows A.
Proof.
  intros HA H. unfold cellProducts in H.
  destruct (mjoin _) as [|v l] eqn:E; [contradiction|]. assert (Hv : v ∈ v :: l) by left. rewrite <- E in Hv.
  apply elem_of_list_join in Hv as (l' & Hv & Hl). apply elem_of_list_fmap in Hl as ([k b] & -> & Hkb).
  apply elem_of_list_fmap in Hv as ([i' a] & _ & Hia). apply elem_of_list_filter in Hia as [Ei Hia]. cbn [fst] in *. subst i'.
  exact (row_entries_range (csc_tr A) k i a HA Hia).
Qed.

Lemma cscOf_col R nr j : j < c_cols B -> col_entries (cscOf B R nr) j = R j.
Proof. intros Hj. apply (assemble_row R (c_cols B) nr j Hj). Qed.
Lemma cscOf_wf R nr : (forall j i v, j < c_cols B -> (i, v) ∈ R j -> i < nr) -> wf_csc (cscOf B R nr).
Proof. intros H. apply (assemble_wf R (c_cols B) nr H). Qed.
End St.

(** C49.  The call computes A*B, provided A's columns are in order, B has at least one column and fewer than 2^17 - 1.  When addop is
    commutative and associative a value is the sum of its products. *)
Theorem C49_heap_csc_partial :
  forall V (mul add : V -> V -> V) (dflt : V) (A B : csc V), wf_csc A -> wf_csc B -> c_rows B = c_cols A -> sorted_cols A ->
  1 <= c_cols B -> (N.of_nat (c_cols B + 1) < 2 ^ 17)%N ->
  exists C, yieldsHC mul add dflt A B C /\ wf_csc C /\ c_rows C = c_rows A /\ c_cols C = c_cols B /\
    (forall j, j < c_cols B -> full_col mul add A B j (col_entries C j)) /\
    ((forall a b, add a b = add b a) -> (forall a b c, add a (add b c) = add (add a b) c) ->
     forall i j v, j < c_cols B -> ((i, v) ∈ col_entries C j <-> sum1 add (cellProducts mul A B i j) = Some v)).
Proof.
  intros V mul add dflt A B HA HB Hin HsA Hn HN.
  destruct (choose_rows (c_cols B) (fun j l => lin_row (fun b a => mul a b) add (csc_tr B) (csc_tr A) j l /\ length l <= nprods (csc_tr B) (csc_tr A) j /\
    forall cs ct cap st base L, length (col_entries B j) <= cap -> cs !! j = Some st -> cs !! ct = Some base -> base <= st ->
      st - base + nprods (csc_tr B) (csc_tr A) j <= length (lo_ids L) -> st - base + nprods (csc_tr B) (csc_tr A) j <= length (lo_vals L) ->
      exists L', heapCol mul add A B cs ct cap j st L = Ok (st + length l, L') /\ crep (st - base) (nprods (csc_tr B) (csc_tr A) j) L L' l) []) as [R HR].
  { intros j Hj. apply (heapCol_correct mul add A B j HA HB Hin Hj HsA). }
  assert (HF : forall j, j < c_cols B -> full_col mul add A B j (R j)) by (intros j Hj; apply lin_full_col, HR, Hj).
  exists (cscOf B R (c_rows A)). split.
  { intros top nts nt iA iB iC C0 s Hnt EA EB EC N1 N2.
    destruct (resetC_ok A B iA iB iC s C0 EA EB EC N1 N2) as (s1 & HR1 & Hs1). exists (lostOf C0).
    destruct (heapCsc_driver mul add dflt A B R HA HB Hin Hn HN (fun j Hj => proj1 (proj2 (HR j Hj))) (fun j cs ct cap st base L Hj => proj2 (proj2 (HR j Hj)) cs ct cap st base L)
      nt Hnt top nts iA iB iC s s1 (c_rows A) (lostOf C0) (deref_csc_Some _ _ _ EA) (deref_csc_Some _ _ _ EB) HR1) as [P U].
    rewrite Hs1 in *. split; [exact P|]. intros s' lost' H'. apply U, H'. }
  split.
  { apply cscOf_wf. intros j i v Hj Hv. apply (cellProducts_rows mul A B i j HA). apply (HF j Hj). apply elem_of_list_fmap. exists (i, v). auto. }
  split; [reflexivity|]. split; [reflexivity|]. split.
  { intros j Hj. rewrite cscOf_col by exact Hj. apply HF, Hj. }
  intros Hc Ha i j v Hj. rewrite cscOf_col by exact Hj. destruct (HF j Hj) as (H1 & H2 & H3).
  assert (HS : forall i v, (i, v) ∈ R j -> sum1 add (cellProducts mul A B i j) = Some v).
  { intros i' v' Hv. destruct (H3 i' v' Hv) as (x & xs & Hp & ->).
    apply (some_order_unique add Hc Ha (fun b a => mul a b) (csc_tr B) (csc_tr A) j i'). exists (x :: xs). split; [exact Hp|reflexivity]. }
  split; [apply HS|]. intros Hv. assert (Hi : i ∈ (fst <$> R j)) by (apply H2; intros E; rewrite E in Hv; discriminate).
  apply elem_of_list_fmap in Hi as ([i' v'] & -> & Hiv). cbn [fst] in *. rewrite (HS _ _ Hiv) in Hv. injection Hv as <-. exact Hiv.
Qed.
Print Assumptions C49_heap_csc_partial.

(** The same, said of the matrices: for [A'], [B'] that hold the same entries by rows, cell (i, j) of C is that of A'*B'. *)
Lemma dots_swap {V} (la lb : list (nat * V)) : (fun p => (snd p, fst p)) <$> dots lb la ≡ₚ dots la lb.
Proof.
  induction la as [|[k a] la IH]; [rewrite dots_nil_r; reflexivity|]. rewrite dots_cons, <- IH. clear IH.
  induction lb as [|[k' b] lb IH]; [reflexivity|]. rewrite !dots_cons, !fmap_app, IH. rewrite filter_cons.
  change (fst (k, a) = k') with (k = k'). rewrite filter_cons. cbn [fst]. destruct (decide (k = k')) as [->|Hne].
  - rewrite (decide_True (P := k' = k')) by reflexivity. rewrite !fmap_cons. cbn [snd fst]. simpl. apply perm_skip. rewrite !app_assoc. apply Permutation_app_tail, Permutation_app_comm.
  - rewrite decide_False by congruence. rewrite !app_assoc. apply Permutation_app_tail, Permutation_app_comm.
Qed.
Lemma cellProducts_perm {V} (mul : V -> V -> V) (A B : csc V) (A' B' : csr V) i j : wf A' -> wf_csc B -> same_matrix A' A -> same_matrix B' B -> cols A' = rows B' ->
  distinct_rows A' -> distinct_rows B' -> sorted_cols A -> (forall j, j < c_cols B -> NoDup (fst <$> col_entries B j)) -> i < c_rows A -> j < c_cols B ->
  cellProducts mul A B i j ≡ₚ products mul (row_entries A' i) (row_entries B') j.
Proof.
  intros HA' HB SA SB Hin DA DB HsA HdB Hi Hj. pose proof (sm_rows _ _ SA) as ra. pose proof (sm_cols _ _ SA) as ca. pose proof (sm_rows _ _ SB) as rb. pose proof (sm_cols _ _ SB) as cb.
  rewrite <- (dots_products mul B' B (row_entries A' i) j DB SB ltac:(lia) (HdB j Hj)) by (intros k a Hk; rewrite <- Hin; eapply row_entries_range; eassumption).
  set (T := mkCsc (cols A') (rows A') (nnz A') (rowptr A') (colids A') (values A')).
  assert (ET : csc_tr T = A') by (unfold T, csc_tr; destruct A'; reflexivity).
  assert (HT : forall k, col_entries T k = row_entries A' k) by (intros k; unfold col_entries; rewrite ET; reflexivity).
  change (cellProducts mul A B i j) with (products (fun b a => mul a b) (col_entries B j) (row_entries (csc_tr A)) i).
  rewrite <- (dots_products (fun b a => mul a b) (csc_tr A) T (col_entries B j) i).
  - rewrite HT, <- (dots_swap (row_entries A' i)). rewrite <- list_fmap_compose. reflexivity.
  - intros k Hk. pose proof (HsA k Hk) as Hs. apply SSorted_NoDup, Hs.
  - split; [cbn; congruence|cbn; congruence|]. intros k i' a Hk Hi'. rewrite HT. cbn in Hk, Hi'. symmetry. apply (sm_entries _ _ SA); lia.
  - exact Hi.
  - rewrite HT. apply DA. lia.
  - intros k b Hk. cbn. rewrite <- ca, Hin, rb. exact (row_entries_range (csc_tr B) j k b HB Hk).
Qed.

Theorem C49_same_product_partial :
  forall V (mul add : V -> V -> V) (dflt : V) (A B : csc V) (A' B' : csr V), wf_csc A -> wf_csc B -> sorted_cols A ->
  (forall j, j < c_cols B -> NoDup (fst <$> col_entries B j)) -> wf A' -> wf B' -> distinct_rows A' -> distinct_rows B' -> same_matrix A' A -> same_matrix B' B -> cols A' = rows B' ->
  1 <= c_cols B -> (N.of_nat (c_cols B + 1) < 2 ^ 17)%N ->
  (forall a b, add a b = add b a) -> (forall a b c, add a (add b c) = add (add a b) c) ->
  exists C, yieldsHC mul add dflt A B C /\ wf_csc C /\ sorted_cols C /\ c_rows C = rows A' /\ c_cols C = cols B' /\
    forall i j v, i < rows A' -> j < cols B' -> ((i, v) ∈ col_entries C j <-> prod_entry mul add A' B' i j = Some v).
Proof.
  intros V mul add dflt A B A' B' HA HB HsA HdB HA' HB' DA DB SA SB Hin Hn HN Hc Ha.
  pose proof (sm_rows _ _ SA) as ra. pose proof (sm_cols _ _ SA) as ca. pose proof (sm_rows _ _ SB) as rb. pose proof (sm_cols _ _ SB) as cb.
  destruct (C49_heap_csc_partial V mul add dflt A B HA HB ltac:(congruence) HsA Hn HN) as (C & HY & HW & Hr & Hcc & HF & HS).
  exists C. split; [exact HY|]. split; [exact HW|]. split; [intros j Hj; apply HF; lia|]. split; [congruence|]. split; [congruence|].
  intros i j v Hi Hj. rewrite (HS Hc Ha i j v) by lia. unfold prod_entry, entry.
  pose proof (cellProducts_perm mul A B A' B' i j HA' HB SA SB Hin DA DB HsA HdB ltac:(lia) ltac:(lia)) as Hp.
  assert (E : sum1 add (cellProducts mul A B i j) = sum1 add (products mul (row_entries A' i) (row_entries B') j)); [|rewrite E; reflexivity].
  destruct (cellProducts mul A B i j) as [|x xs]; [apply Permutation_nil in Hp as ->; reflexivity|].
  destruct (products mul (row_entries A' i) (row_entries B') j) as [|y ys]; [symmetry in Hp; apply Permutation_nil in Hp; discriminate|].
  cbn [sum1]. rewrite !(fold_osum add Ha). apply (osum_perm add Hc Ha), Hp.
Qed.
Print Assumptions C49_same_product_partial.

(** No two threads ever access the same cell at the same time with one of them writing: in the loop that fills colEnd, the loop that cuts the
    columns, the multiplication, the loop that fills col_nz and the copy to C. *)
Theorem C49_race_free_partial :
  forall V (mul add : V -> V -> V) (dflt : V) (A B : csc V) (nt : nat) flops total cs, wf_csc A -> wf_csc B -> c_rows B = c_cols A -> sorted_cols A ->
  1 <= c_cols B -> (N.of_nat (c_cols B + 1) < 2 ^ 17)%N -> 1 <= nt ->
  parfor_always (flopsCol A B) (c_cols B) (replicate (c_cols B) (Some 0)) (Some <$> flops) total ->
  (exists top nts, lScan_always 0 Nat.add top flops (c_cols B) nts (<[0 := Some 0]> (replicate (c_cols B) (Some 0))) (Some <$> cs)) ->
  parfor_race_free (endBody cs) (c_cols B - 1) (cells aEnd (replicate (c_cols B) 0)) /\
  (forall en1, parfor_ends (endBody cs) (c_cols B - 1) (cells aEnd (replicate (c_cols B) 0)) (cells aEnd en1) ->
   parfor_race_free (cutBody cs (c_cols B) (total * 2 / 2 / nt)) nt (cells aCut (replicate (nt + 1) 0)) /\
   forall cut1, parfor_ends (cutBody cs (c_cols B) (total * 2 / 2 / nt)) nt (cells aCut (replicate (nt + 1) 0)) (cells aCut cut1) ->
   let cut := <[nt := c_cols B]> cut1 in
   race_free (cells aEnd en1, heapThread mul add A B flops cs cut <$> seq 0 nt) /\
   forall en locals, always (cells aEnd en1, heapThread mul add A B flops cs cut <$> seq 0 nt) (cells aEnd en) locals ->
   parfor_race_free (nzBody cs en) (c_cols B) (cells aCnz (replicate (c_cols B) 0)) /\
   forall nz cp asg nz', parfor_ends (nzBody cs en) (c_cols B) (cells aCnz (replicate (c_cols B) 0)) (cells aCnz nz) ->
   (exists top nts, lScan_always 0 Nat.add top nz (c_cols B + 1) nts (replicate (c_cols B + 1) (Some 0)) (Some <$> cp)) -> get cp (c_cols B) = Ok nz' ->
   chunks cut nt = Ok asg ->
   race_free (numMem (replicate nz' 0) (replicate nz' dflt), numThreads (fun t => L <- get locals t ;; ct <- get cut t ;; Ok (ct, L)) (localCol cs en) cp asg)).
Proof.
  intros V mul add dflt A B nt flops total cs HA HB Hin HsA Hn HN Hnt Qf (top & nts & Qcs).
  destruct (choose_rows (c_cols B) (fun j l => length l <= nprods (csc_tr B) (csc_tr A) j /\
    forall cs ct cap st base L, length (col_entries B j) <= cap -> cs !! j = Some st -> cs !! ct = Some base -> base <= st ->
      st - base + nprods (csc_tr B) (csc_tr A) j <= length (lo_ids L) -> st - base + nprods (csc_tr B) (csc_tr A) j <= length (lo_vals L) ->
      exists L', heapCol mul add A B cs ct cap j st L = Ok (st + length l, L') /\ crep (st - base) (nprods (csc_tr B) (csc_tr A) j) L L' l) []) as [R HR].
  { intros j Hj. destruct (heapCol_correct mul add A B j HA HB Hin Hj HsA) as (l & _ & H). eauto. }
  pose proof (fun j Hj => proj1 (HR j Hj)) as HR1. pose proof (fun j cs ct cap st base L Hj => proj2 (HR j Hj) cs ct cap st base L) as HR2. clear HR.
  assert (H0 : forall k, replicate k 0 = <[0 := 0]> (replicate k 0)).
  { intros [|k]; reflexivity. }
  pose proof (cflops_ok mul add A B R HA HB Hin Hn HN HR1 HR2 nt Hnt) as Hf. destruct (parfor_always_unique _ _ _ _ _ _ _ Qf Hf) as [E1 ->]. apply (inj (fmap Some)) in E1 as ->.
  assert (HN' : lIsSeq (c_cols B) = true) by (apply N.ltb_lt; lia). assert (HN1 : lIsSeq (c_cols B + 1) = true) by (apply N.ltb_lt; exact HN).
  pose proof (cscan_ok mul add A B R Hin Hn HN HR1 HR2 nt Hnt top nts) as Hcs. unfold lScan_always in Qcs, Hcs. rewrite HN' in Qcs, Hcs. rewrite Hcs in Qcs. injection Qcs as Qcs. apply (inj (fmap Some)) in Qcs as <-.
  destruct (cend_region mul add A B R Hin Hn HN HR1 HR2 nt Hnt) as [Hend Rend]. destruct (ccut_region mul add A B R Hin Hn HN HR1 HR2 nt Hnt) as [Hcut Rcut].
  rewrite (H0 (c_cols B)), (H0 (nt + 1)). split; [exact Rend|]. intros en1 Qend.
  pose proof (parfor_ends_unique _ _ _ _ _ Qend Hend) as E2. apply cells_inj in E2 as ->. split; [exact Rcut|]. intros cut1 Qcut cut.
  pose proof (parfor_ends_unique _ _ _ _ _ Qcut Hcut) as E3. apply cells_inj in E3 as ->.
  assert (E : cut = ccuts A B nt).
  { pose proof (ccuts_set mul add A B R Hin Hn HN HR1 HR2 nt Hnt) as Hs. unfold set_ in Hs. destruct (Nat.ltb_spec nt (length (ccuts1 A B nt))); [|discriminate]. injection Hs as <-. reflexivity. }
  clearbody cut. subst cut.
  destruct (numeric_region mul add dflt A B R HB Hin Hn HN HR1 HR2 nt Hnt) as (locals' & Hll & HL & Hnum & Rnum). split; [exact Rnum|]. intros en locals Qnum.
  destruct (always_unique _ _ _ _ _ Qnum Hnum) as [E4 ->]. apply cells_inj in E4 as ->.
  destruct (nz_region mul add A B R Hin Hn HN HR1 HR2 nt Hnt) as [Hnz Rnz]. rewrite <- (H0 (c_cols B)). split; [exact Rnz|].
  intros nz cp asg nz' Qnz (top' & nts' & Qsc) Qg Qch. pose proof (parfor_ends_unique _ _ _ _ _ Qnz Hnz) as E5. apply cells_inj in E5 as ->.
  pose proof (cnz_scan mul add A B R Hin Hn HN HR1 HR2 nt Hnt top' nts') as Hsc. unfold lScan_always in Qsc, Hsc. rewrite HN1 in Qsc, Hsc. rewrite Hsc in Qsc. injection Qsc as Qsc. apply (inj (fmap Some)) in Qsc as <-.
  erewrite get_Some in Qg by (rewrite seq_at, decide_True by lia; reflexivity). injection Qg as <-.
  destruct (copy_region mul add dflt A B R Hin Hn HN HR1 HR2 nt Hnt locals' Hll HL) as (asg' & Hch & _ & _ & Rcopy). rewrite Hch in Qch. injection Qch as <-. exact Rcopy.
Qed.
Print Assumptions C49_race_free_partial.

(** *** Findings *)
(** B has no columns: colStart[0] and colEnd[0] are written although the arrays have no cells (65-66). *)
Theorem C49_zero_columns_refuted :
  forall V (mul add : V -> V -> V) dflt top nts nt iA iB iC (B : csc V) (s : gmap nat (obj V)), s !! iB = Some (OCsc B) -> c_cols B = 0 ->
  ~ exists s' lost, HeapCsc_ends mul add dflt top nts nt iA iB iC s s' lost.
Proof.
  intros V mul add dflt top nts nt iA iB iC B s EB E0 (s' & lost & _ & A' & B' & QA & QB & fl & tot & Qf & st0 & en0 & Qs0 & _).
  rewrite (deref_csc_Some _ _ _ EB) in QB. injection QB as <-. rewrite E0 in Qs0. discriminate.
Qed.
Print Assumptions C49_zero_columns_refuted.

Lemma always_dom {L Val R} `{Countable L} (c : @cfg L Val _ _ R) m' rs l : always c m' rs -> is_Some (c.1 !! l) <-> is_Some (m' !! l).
Proof.
  intros (_ & _ & Ho). inversion Ho as [|m1 rs1 Hr]; subst.
  assert (HH : forall c c' : @cfg L Val _ _ R, rtc step c c' -> is_Some (c.1 !! l) <-> is_Some (c'.1 !! l)).
  { induction 1 as [c0|c0 c1 c2 H1 _ IH]; [reflexivity|]. rewrite <- IH. destruct H1 as [m ps u l' k v Hu Hv|m ps u l' v k Hu Hv]; cbn [fst]; [reflexivity|].
    destruct (decide (l = l')) as [->|Hne]; [rewrite lookup_insert; split; eauto|rewrite lookup_insert_ne by congruence; reflexivity]. }
  apply (HH _ _ Hr).
Qed.
Lemma parfor_ends_length (body : nat -> prog loc nat unit) n a (l l' : list nat) : parfor_ends body n (cells a l) (cells a l') -> length l' = length l.
Proof.
  intros H. specialize (H [seq 0 n]). assert (Hs : schedule n [seq 0 n]) by (unfold schedule; simpl; rewrite app_nil_r; reflexivity). specialize (H Hs).
  assert (HL : forall j, is_Some (l !! j) <-> is_Some (l' !! j)).
  { intros j. pose proof (always_dom _ _ _ (a, j) H) as Hd. cbn [fst] in Hd. rewrite !cells_lookup, !decide_True in Hd by reflexivity. exact Hd. }
  destruct (Nat.lt_trichotomy (length l') (length l)) as [Hlt|[Heq|Hlt]]; [|exact Heq|].
  - apply lookup_lt_is_Some_2, HL, lookup_lt_is_Some_1 in Hlt. lia.
  - apply lookup_lt_is_Some_2, HL, lookup_lt_is_Some_1 in Hlt. lia.
Qed.

(** 2^17 - 1 columns or more: scan is asked for one more cell than col_nz has, and its parallel version reads that cell (193). *)
Theorem C49_many_columns_refuted :
  forall V (mul add : V -> V -> V) dflt top nts nt iA iB iC (B : csc V) (s : gmap nat (obj V)), s !! iB = Some (OCsc B) -> iC <> iB ->
  (2 ^ 17 <= N.of_nat (c_cols B + 1))%N -> 1 <= nts <= c_cols B + 1 ->
  ~ exists s' lost, HeapCsc_ends mul add dflt top nts nt iA iB iC s s' lost.
Proof.
  intros V mul add dflt top nts nt iA iB iC B s EB Hne HN Hnts
    (s' & lost & _ & A' & B' & QA & QB & fl & tot & Qf & st0 & en0 & Qs0 & Qe0 & cs & Qcs & en1 & Qend & c0 & c1 & cut & Qc0 & Qcut & Qset & en & loc' & Qnum & s1' & nr' & nc' & QR & nz & Qnz & C & Cr & Cc & Qsc & _).
  assert (Hnc : nc' = c_cols B).
  { unfold resetC in QR. destruct (deref_csc s iC) as [C1|]; [|discriminate]. rewrite bind_Ok in QR. cbv zeta in QR.
    set (s0 := if c_nnz C1 =? 0 then _ else s) in QR.
    assert (E0 : s0 !! iB = Some (OCsc B)) by (unfold s0; destruct (c_nnz C1 =? 0); [rewrite lookup_insert_ne by exact Hne|]; exact EB).
    destruct (deref_csc s0 iA) as [A1|]; [|discriminate]. rewrite bind_Ok in QR. destruct (deref_csc s0 iC) as [C2|]; [|discriminate]. rewrite bind_Ok in QR.
    rewrite (deref_csc_Some _ iB B) in QR by (rewrite lookup_insert_ne by exact Hne; exact E0). rewrite bind_Ok in QR.
    destruct (deref_csc _ iC) as [C3|]; [|discriminate]. rewrite bind_Ok in QR. injection QR as _ _ <- _. reflexivity. }
  rewrite Hnc in Qnz, Qsc. pose proof (parfor_ends_length _ _ _ _ _ Qnz) as Hl. rewrite replicate_length in Hl.
  assert (Hf : region_outcome (lRegion 0 Nat.add top nz (c_cols B + 1) nts) tt (lMem 0 (replicate (c_cols B + 1) (Some 0)) nts) (replicate nts tt) (Err OutOfBounds)).
  { apply lregion_fails; try (intros; lia); rewrite replicate_length; lia. }
  unfold lScan_always in Qsc. replace (lIsSeq (c_cols B + 1)) with false in Qsc by (symmetry; apply N.ltb_ge; exact HN).
  destruct Qsc as (m & Qs & _). apply (region_always_outcome _ _ _ _ _ _ _ _ Qs) in Hf. discriminate.
Qed.
Print Assumptions C49_many_columns_refuted.

(** The test of 177 is the wrong way round: the arrays of a C that has entries are not released before they are replaced (185, 197, 198). *)
Theorem C49_leak_refuted :
  forall V (mul add : V -> V -> V) dflt top nts nt iA iB iC (C0 : csc V) (s s' : gmap nat (obj V)) lost, s !! iC = Some (OCsc C0) -> wf_csc C0 -> c_nnz C0 <> 0 ->
  HeapCsc_ends mul add dflt top nts nt iA iB iC s s' lost -> lost = (c_cols C0 + 1) + c_nnz C0 + c_nnz C0.
Proof.
  intros V mul add dflt top nts nt iA iB iC C0 s s' lost EC HW Hz
    (_ & A' & B' & QA & QB & fl & tot & Qf & st0 & en0 & Qs0 & Qe0 & cs & Qcs & en1 & Qend & c0 & c1 & cut & Qc0 & Qcut & Qset & en & loc' & Qnum & s1' & nr' & nc' & QR & _).
  unfold resetC in QR. rewrite (deref_csc_Some _ _ _ EC), bind_Ok in QR. cbv zeta in QR.
  repeat match type of QR with (_ <- ?x ;; _) = Ok _ => destruct x; [|discriminate]; rewrite bind_Ok in QR end.
  injection QR as _ _ _ <-. destruct (Nat.eqb_spec (c_nnz C0) 0); [contradiction|]. cbn [andb].
  pose proof (wf_len _ HW) as L1. pose proof (wf_colids _ HW) as L2. pose proof (wf_values _ HW) as L3. cbn in L1, L2, L3. rewrite L1, L2, L3. lia.
Qed.
Print Assumptions C49_leak_refuted.

(** C is A itself and has no entries: make_empty sets its dimensions to 0 before A.rows is read (178, 182), and C ends up with no rows. *)
Theorem C49_alias_A_refuted :
  forall V (mul add : V -> V -> V) dflt top nts nt iA iB (A : csc V) (s s' : gmap nat (obj V)) lost, s !! iA = Some (OCsc A) -> c_nnz A = 0 ->
  HeapCsc_ends mul add dflt top nts nt iA iB iA s s' lost -> exists C, s' !! iA = Some (OCsc C) /\ c_rows C = 0.
Proof.
  intros V mul add dflt top nts nt iA iB A s s' lost EC Hz
    (_ & A' & B' & QA & QB & fl & tot & Qf & st0 & en0 & Qs0 & Qe0 & cs & Qcs & en1 & Qend & c0 & c1 & cut & Qc0 & Qcut & Qset & en & loc' & Qnum & s1' & nr' & nc' & QR & nz & Qnz & C & Cr & Cc & Qsc & Qg & asg' & Qch & Qcopy & ->).
  exists C. split; [apply lookup_insert|]. rewrite Cr. clear -EC Hz QR.
  unfold resetC in QR. rewrite (deref_csc_Some _ _ _ EC), bind_Ok in QR. cbv zeta in QR. rewrite Hz in QR. cbn [Nat.eqb] in QR.
  rewrite (deref_csc_Some _ iA _ (lookup_insert _ _ _)), !bind_Ok in QR. cbn [c_rows] in QR.
  destruct (deref_csc _ iB) as [B1|]; [|discriminate]. rewrite bind_Ok in QR. rewrite (deref_csc_Some _ iA _ (lookup_insert _ _ _)), bind_Ok in QR.
  injection QR as _ <- _ _. reflexivity.
Qed.
Print Assumptions C49_alias_A_refuted.

Lemma noret_numRows {V S} (num : nat -> S -> res (S * list (nat * V))) (rp : list nat) i : rp !! i = None ->
  forall its s, i ∈ its -> noret (numRows num rp its s).
Proof.
  intros Hn. induction its as [|j its IH]; intros s Hi; [inversion Hi|]. cbn [numRows]. apply noret_lift. intros r _.
  apply elem_of_cons in Hi as [->|Hi].
  - unfold get. rewrite Hn. exact I.
  - apply noret_lift. intros off _. apply noret_bind_r. intros _. apply IH, Hi.
Qed.

(** C is B itself and has no entries but at least two columns: B.cols is 0 by the time C's arrays are made (178, 183), but the copy still goes
    over all columns and reads C.colptr past its only cell (204). *)
Theorem C49_alias_B_refuted :
  forall V (mul add : V -> V -> V) dflt top nts nt iA iB (A B : csc V) (s : gmap nat (obj V)), s !! iA = Some (OCsc A) -> s !! iB = Some (OCsc B) -> c_nnz B = 0 ->
  wf_csc A -> wf_csc B -> c_rows B = c_cols A -> sorted_cols A -> 2 <= c_cols B -> (N.of_nat (c_cols B + 1) < 2 ^ 17)%N ->
  ~ exists s' lost, HeapCsc_ends mul add dflt top nts nt iA iB iB s s' lost.
Proof.
  intros V mul add dflt top nts nt iA iB A B s EA EB Hz HA HB Hin HsA Hn2 HN
    (s' & lost & Hnt & A' & B' & QA & QB & fl & tot & Qf & st0 & en0 & Qs0 & Qe0 & cs & Qcs & en1 & Qend & c0 & c1 & cut & Qc0 & Qcut & Qset & en & loc' & Qnum & s1' & nr' & nc' & QR & nz & Qnz & C & Cr & Cc & Qsc & Qg & asg' & Qch & Qcopy & ->).
  rewrite (deref_csc_Some _ _ _ EA) in QA. injection QA as <-. rewrite (deref_csc_Some _ _ _ EB) in QB. injection QB as <-.
  assert (Hn : 1 <= c_cols B) by lia.
  destruct (choose_rows (c_cols B) (fun j l => length l <= nprods (csc_tr B) (csc_tr A) j /\
    forall cs ct cap st base L, length (col_entries B j) <= cap -> cs !! j = Some st -> cs !! ct = Some base -> base <= st ->
      st - base + nprods (csc_tr B) (csc_tr A) j <= length (lo_ids L) -> st - base + nprods (csc_tr B) (csc_tr A) j <= length (lo_vals L) ->
      exists L', heapCol mul add A B cs ct cap j st L = Ok (st + length l, L') /\ crep (st - base) (nprods (csc_tr B) (csc_tr A) j) L L' l) []) as [R HR].
  { intros j Hj. destruct (heapCol_correct mul add A B j HA HB Hin Hj HsA) as (l & _ & H). eauto. }
  pose proof (fun j Hj => proj1 (HR j Hj)) as HR1. pose proof (fun j cs ct cap st base L Hj => proj2 (HR j Hj) cs ct cap st base L) as HR2. clear HR.
  pose proof (cflops_ok mul add A B R HA HB Hin Hn HN HR1 HR2 nt Hnt) as Hf. destruct (parfor_always_unique _ _ _ _ _ _ _ Qf Hf) as [E1 ->]. apply (inj (fmap Some)) in E1 as ->.
  assert (HN' : lIsSeq (c_cols B) = true) by (apply N.ltb_lt; lia).
  rewrite set_Ok in Qs0 by (rewrite replicate_length; lia). injection Qs0 as <-. rewrite set_Ok in Qc0 by (rewrite replicate_length; lia). injection Qc0 as <-.
  pose proof (cscan_ok mul add A B R Hin Hn HN HR1 HR2 nt Hnt top nts) as Hcs. unfold lScan_always in Qcs, Hcs. rewrite HN' in Qcs, Hcs. rewrite Hcs in Qcs. injection Qcs as Qcs. apply (inj (fmap Some)) in Qcs as <-.
  destruct (ccut_region mul add A B R Hin Hn HN HR1 HR2 nt Hnt) as [Hcut _]. pose proof (parfor_ends_unique _ _ _ _ _ Qcut Hcut) as E3. apply cells_inj in E3 as ->.
  rewrite (ccuts_set mul add A B R Hin Hn HN HR1 HR2 nt Hnt) in Qset. injection Qset as <-.
  assert (Hnc : nc' = 0).
  { clear -EB Hz QR EA. unfold resetC in QR. rewrite (deref_csc_Some _ _ _ EB), bind_Ok in QR. cbv zeta in QR. rewrite Hz in QR. cbn [Nat.eqb] in QR.
    destruct (deref_csc _ iA) as [A1|]; [|discriminate]. rewrite bind_Ok in QR. rewrite (deref_csc_Some _ iB _ (lookup_insert _ _ _)), bind_Ok in QR.
    rewrite (deref_csc_Some _ iB _ (lookup_insert _ _ _)), !bind_Ok in QR. injection QR as _ _ <- _. reflexivity. }
  apply lscan_length in Qsc. rewrite fmap_length, replicate_length in Qsc. rewrite Hnc in Qsc.
  rewrite (chunks_ok _ _ (ccut A B nt)) in Qch by (intros; eapply ccuts_at; eauto). injection Qch as <-.
  destruct (cut_cover (ccut A B nt) nt 1) as (t & Ht & Hc); [reflexivity|erewrite ccut_nt by eauto; lia|].
  revert Qcopy. eapply (noret_always _ _ t).
  - unfold numThreads. rewrite list_lookup_imap, seq_at, decide_True by exact Ht. reflexivity.
  - apply noret_lift. intros st _. apply (noret_numRows _ _ 1); [apply lookup_ge_None_2; lia|]. apply elem_of_seq. lia.
Qed.
Print Assumptions C49_alias_B_refuted.

(** *** Cases *)
Lemma sorted_pairs_eq {V} (l1 l2 : list (nat * V)) : StronglySorted lt (fst <$> l1) -> StronglySorted lt (fst <$> l2) -> (forall x, x ∈ l1 <-> x ∈ l2) -> l1 = l2.
Proof.
  intros S1 S2 Hx. assert (E : fst <$> l1 = fst <$> l2).
  { apply sorted_lt_unique; [assumption..|]. intros j. rewrite !elem_of_list_fmap. split; intros (x & -> & H); exists x; (split; [reflexivity|apply Hx, H]). }
  apply SSorted_NoDup in S1. revert l2 S2 Hx E. induction l1 as [|[i v] l1 IH]; intros [|[j w] l2] S2 Hx E; [reflexivity|discriminate|discriminate|].
  rewrite !fmap_cons in E. cbn [fst] in E. injection E as <- E. rewrite fmap_cons in S1. cbn [fst] in S1. apply NoDup_cons in S1 as [Hni S1].
  assert (Ev : (i, w) ∈ (i, v) :: l1) by (apply Hx; left). apply elem_of_cons in Ev as [Ev|Ev]; [|exfalso; apply Hni; apply elem_of_list_fmap; exists (i, w); auto].
  injection Ev as ->. f_equal. apply SSorted_NoDup in S2 as ND2. rewrite fmap_cons in ND2. cbn [fst] in ND2. apply NoDup_cons in ND2 as [Hni2 _].
  apply IH; [exact S1|rewrite fmap_cons in S2; inversion S2; assumption| |exact E].
  intros x. split; intros H.
  - assert (Hr : x ∈ (i, v) :: l2) by (apply Hx; right; exact H). apply elem_of_cons in Hr as [->|Hr]; [|exact Hr]. exfalso. apply Hni. apply elem_of_list_fmap. exists (i, v). auto.
  - assert (Hr : x ∈ (i, v) :: l1) by (apply Hx; right; exact H). apply elem_of_cons in Hr as [->|Hr]; [|exact Hr]. exfalso. apply Hni2. apply elem_of_list_fmap. exists (i, v). auto.
Qed.

Definition exAc : csc Z := mkCsc 3 3 4 [0;1;2;4] [0;2;0;2] [2;5;3;-1]%Z.
Lemma exAc_wf : wf_csc exAc.
Proof. prove_wf. Qed.
Lemma exAc_sorted : sorted_cols exAc.
Proof. intros j Hj. cbn in Hj. destruct j as [|[|[|j]]]; [..|lia]; vm_compute; repeat constructor. Qed.
Lemma exAc_same : same_matrix exA exAc.
Proof.
  split; [reflexivity|reflexivity|]. intros k j b Hk Hj. cbn in Hk, Hj.
  destruct k as [|[|[|k]]]; [..|lia]; (destruct j as [|[|[|j]]]; [..|lia]); vm_compute; split; intros H; repeat (apply elem_of_cons in H as [H|H]; [injection H; intros; subst; repeat constructor|]); inversion H.
Qed.
Example C49_example : wf_csc exAc /\ wf_csc exBc /\ c_rows exBc = c_cols exAc /\ sorted_cols exAc /\ same_matrix exA exAc /\ same_matrix exB exBc /\
  exists C, yieldsHC Z.mul Z.add 0%Z exAc exBc C /\ c_rows C = 3 /\ c_cols C = 4 /\
    col_entries C <$> [0; 1; 2; 3] = [[0 ~> -4; 2 ~> 2]; [0 ~> 18; 2 ~> 29]; []; [0 ~> 11; 2 ~> -1]].
Proof.
  split; [exact exAc_wf|]. split; [exact exBc_wf|]. split; [reflexivity|]. split; [exact exAc_sorted|]. split; [exact exAc_same|]. split; [exact exBc_same|].
  destruct (C49_heap_csc_partial Z Z.mul Z.add 0%Z exAc exBc exAc_wf exBc_wf eq_refl exAc_sorted ltac:(cbn; lia) ltac:(reflexivity)) as (C & HY & HW & Hr & Hc & HF & HS).
  exists C. split; [exact HY|]. split; [exact Hr|]. split; [exact Hc|].
  assert (E : forall j, j < 4 -> col_entries C j = omap (fun i => (fun v => (i, v)) <$> sum1 Z.add (cellProducts Z.mul exAc exBc i j)) (seq 0 3)).
  { intros j Hj. apply sorted_pairs_eq.
    - apply HF, Hj.
    - destruct j as [|[|[|[|j]]]]; [..|lia]; vm_compute; repeat constructor.
    - intros [i v]. rewrite (HS Z.add_comm Z.add_assoc i j v Hj). rewrite elem_of_list_omap. split.
      + intros H. exists i. split; [|rewrite H; reflexivity]. apply elem_of_seq. split; [lia|]. apply (cellProducts_rows Z.mul exAc exBc i j exAc_wf).
        intros En. rewrite En in H. discriminate.
      + intros (i' & _ & H). destruct (sum1 _ (cellProducts _ _ _ i' j)) eqn:E'; [|discriminate]. injection H as <- <-. exact E'. }
  cbn [fmap list_fmap]. rewrite !E by lia. vm_compute. reflexivity.
Qed.

(** A column of A out of order: both rows of C get two entries. *)
Example C49_unsorted_example :
  heapCol Z.mul Z.add (mkCsc 2 2 4 [0;2;4] [1;0;0;1] [5;7;2;3]%Z) (mkCsc 2 1 2 [0;2] [0;1] [1;1]%Z) [0] 0 2 0 0 (mkLout (replicate 4 9) (replicate 4 None)) =
  Ok (4, mkLout [0;1;0;1] [Some 2%Z; Some 5%Z; Some 7%Z; Some 3%Z]).
Proof. vm_compute. reflexivity. Qed.

(** The findings are met by small matrices. *)
Example C49_leak_example : exists (s s' : gmap nat (obj Z)) lost, HeapCsc_ends Z.mul Z.add 0%Z 0 1 2 0 1 2 s s' lost /\ lost = 17.
Proof.
  set (s := {[0 := OCsc exAc; 1 := OCsc exBc; 2 := OCsc exBc]} : gmap nat (obj Z)).
  destruct (C49_heap_csc_partial Z Z.mul Z.add 0%Z exAc exBc exAc_wf exBc_wf eq_refl exAc_sorted ltac:(cbn; lia) ltac:(reflexivity)) as (C & HY & _).
  destruct (HY 0 1 2 0 1 2 exBc s ltac:(lia) eq_refl eq_refl eq_refl ltac:(discriminate) ltac:(discriminate)) as (lost & H & _).
  exists s, (<[2 := OCsc C]> s), lost. split; [exact H|].
  rewrite (C49_leak_refuted Z Z.mul Z.add 0%Z 0 1 2 0 1 2 exBc s _ lost eq_refl exBc_wf ltac:(discriminate) H). reflexivity.
Qed.
Example C49_alias_A_example : exists s' lost, let s := {[0 := OCsc (mkCsc 3 3 0 [0;0;0;0] [] [] : csc Z); 1 := OCsc exBc]} : gmap nat (obj Z) in
  HeapCsc_ends Z.mul Z.add 0%Z 0 1 2 0 1 0 s s' lost /\ exists C, s' !! 0 = Some (OCsc C) /\ c_rows C = 0 /\ c_cols C = 4.
Proof.
  set (A := mkCsc 3 3 0 [0;0;0;0] [] [] : csc Z). set (s := {[0 := OCsc A; 1 := OCsc exBc]} : gmap nat (obj Z)).
  assert (HA : wf_csc A) by (unfold A; clear; prove_wf).
  assert (HsA : sorted_cols A) by (intros j Hj; cbn in Hj; destruct j as [|[|[|j]]]; [..|lia]; vm_compute; repeat constructor).
  destruct (choose_rows (c_cols exBc) (fun j l => length l <= nprods (csc_tr exBc) (csc_tr A) j /\
    forall cs ct cap st base L, length (col_entries exBc j) <= cap -> cs !! j = Some st -> cs !! ct = Some base -> base <= st ->
      st - base + nprods (csc_tr exBc) (csc_tr A) j <= length (lo_ids L) -> st - base + nprods (csc_tr exBc) (csc_tr A) j <= length (lo_vals L) ->
      exists L', heapCol Z.mul Z.add A exBc cs ct cap j st L = Ok (st + length l, L') /\ crep (st - base) (nprods (csc_tr exBc) (csc_tr A) j) L L' l) []) as [R HR].
  { intros j Hj. destruct (heapCol_correct Z.mul Z.add A exBc j HA exBc_wf eq_refl Hj HsA) as (l & _ & H). eauto. }
  assert (HRs : exists s1 lost, resetC 0 1 0 s = Ok (s1, 0, 4, lost)) by (do 2 eexists; reflexivity). destruct HRs as (s1 & lost & HRs).
  destruct (heapCsc_driver Z.mul Z.add 0%Z A exBc R HA exBc_wf eq_refl ltac:(cbn; lia) ltac:(reflexivity) (fun j Hj => proj1 (HR j Hj)) (fun j cs ct cap st base L Hj => proj2 (HR j Hj) cs ct cap st base L)
    2 ltac:(lia) 0 1 0 1 0 s s1 0 lost eq_refl eq_refl HRs) as [P _].
  do 2 eexists. split; [exact P|]. eexists. split; [apply lookup_insert|]. split; reflexivity.
Qed.
Example C49_alias_B_example : let B := mkCsc 3 4 0 [0;0;0;0;0] [] [] : csc Z in wf_csc B /\ c_rows B = c_cols exAc /\
  ~ exists s' lost, HeapCsc_ends Z.mul Z.add 0%Z 0 1 2 0 1 1 {[0 := OCsc exAc; 1 := OCsc B]} s' lost.
Proof.
  assert (HB : wf_csc (mkCsc 3 4 0 [0;0;0;0;0] [] [] : csc Z)) by prove_wf. split; [exact HB|]. split; [reflexivity|].
  eapply (C49_alias_B_refuted Z Z.mul Z.add 0%Z 0 1 2 0 1 exAc); [reflexivity|reflexivity|reflexivity|exact exAc_wf|exact HB|reflexivity|exact exAc_sorted|cbn; lia|reflexivity].
Qed.
