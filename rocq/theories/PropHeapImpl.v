(** C48: HeapSpGEMM of heap_mult_generic.h.  Words used: [HeapSpGEMMImpl_always], [HeapSpGEMM_unmasked_always]
    (HeapImplModel: the call always ends, whatever the interleaving, with these objects); [product_matrix]
    (DriverStatements); [sum_in_some_order], [spec_row], [touched_cols], [row_prods] (Spec, ComplProofs). *)
From stdpp Require Import numbers.
From Coq Require Import NArith ZArith.
From Verif Require Import KernelBase HeapImplModel MemModel BaseProofs ComplProofs McaModel McaProofs HeapModel HeapProofs HeapStatements ConcProofs WorkModel WorkProofs Assemble DriverBase DriverProofs
  DriverStatements RaceProofs LegacyScanModel BinProofs HeapImplRowProofs HeapImplMcaProofs HeapImplProofs HeapImplStuck PropBin Examples.
From Verif Require Import Base Spec.

(** The masked call, given objects that hold A, B, M and any matrix C0 in an object of its own, always ends with
    [C] in the place of C0 and every other object as before: for every number of threads of the region ([nt])
    and of the scan ([nts]), every schedule. *)
Definition yieldsH {V} (alg : halg V) (A B M C : csr V) : Prop :=
  forall (top nts nt iA iB iM iC : nat) (C0 : csr V) (s : gmap nat (obj V)), 1 <= nt -> 1 <= nts ->
    nts <= rows A \/ (N.of_nat (rows A) < 2 ^ 17)%N ->
    s !! iA = Some (OMat A) -> s !! iB = Some (OMat B) -> s !! iM = Some (OMat M) -> s !! iC = Some (OMat C0) ->
    iC <> iA -> iC <> iB -> iC <> iM ->
    HeapSpGEMMImpl_always alg top nts iA iB iM iC nt s (<[iC := OMat C]> s) /\
    forall s', HeapSpGEMMImpl_always alg top nts iA iB iM iC nt s s' -> s' = <[iC := OMat C]> s.
(** The same for the call without a mask; [iM] is the object it creates and destroys. *)
Definition yieldsU {V} (alg : halg V) (A B C : csr V) : Prop :=
  forall (top nts nt iA iB iM iC : nat) (C0 : csr V) (s : gmap nat (obj V)), 1 <= nt -> 1 <= nts ->
    nts <= rows A \/ (N.of_nat (rows A) < 2 ^ 17)%N ->
    s !! iA = Some (OMat A) -> s !! iB = Some (OMat B) -> s !! iM = None -> s !! iC = Some (OMat C0) ->
    iC <> iA -> iC <> iB ->
    HeapSpGEMM_unmasked_always alg top nts iA iB iM iC nt s (<[iC := OMat C]> s) /\
    forall s', HeapSpGEMM_unmasked_always alg top nts iA iB iM iC nt s s' -> s' = <[iC := OMat C]> s.

Section St.
Context {V : Type}.
Lemma contractH (alg : halg V) A B M rspec est skips : wf A -> wf B -> cols A = rows B -> 1 <= rows A -> ha_ok alg A B M rspec est skips ->
  yieldsH alg A B M (assemble rspec (rows A) (cols B)).
Proof.
  intros HA HB Hc Hr Hok top nts nt iA iB iM iC C0 s Hnt Hnts Hn EA EB EM EC N1 N2 N3.
  pose proof (driverH_ok alg A B M rspec est skips HA HB Hc Hok Hr nt Hnt top nts iA iB iM iC C0 s Hnts Hn EA EB EM EC N1 N2 N3) as H.
  split; [exact H|]. intros s' H'. eapply driverH_unique; eassumption.
Qed.
Lemma contractU (alg : halg V) A B rspec est skips : wf A -> wf B -> cols A = rows B -> 1 <= rows A ->
  ha_ok alg A B (mkCsr 0 0 0 [] [] []) rspec est skips -> yieldsU alg A B (assemble rspec (rows A) (cols B)).
Proof.
  intros HA HB Hc Hr Hok top nts nt iA iB iM iC C0 s Hnt Hnts Hn EA EB EM EC N1 N2.
  assert (N3 : iM <> iC) by congruence. assert (N4 : iM <> iA) by congruence. assert (N5 : iM <> iB) by congruence.
  pose proof (driverH_ok alg A B (mkCsr 0 0 0 [] [] []) rspec est skips HA HB Hc Hok Hr nt Hnt top nts iA iB iM iC C0 (<[iM := OMat (mkCsr 0 0 0 [] [] [])]> s) Hnts Hn) as H.
  rewrite lookup_insert, !lookup_insert_ne in H by assumption. specialize (H EA EB eq_refl EC N1 N2 (not_eq_sym N3)).
  assert (E : forall o, delete iM (<[iC:=o]> (<[iM:=OMat (mkCsr 0 0 0 [] [] [])]> s)) = <[iC := o]> s).
  { intros o. rewrite delete_insert_ne by congruence. rewrite delete_insert by exact EM. reflexivity. }
  split.
  - exists (<[iC:=OMat (assemble rspec (rows A) (cols B))]> (<[iM:=OMat (mkCsr 0 0 0 [] [] [])]> s)). split; [exact H|]. rewrite E. reflexivity.
  - intros s' (s1 & H1 & ->). rewrite (driverH_unique _ _ _ _ _ _ _ _ _ _ _ H1 H). apply E.
Qed.
Lemma contractH_product (alg : halg V) A B M rspec est skips (R : nat -> list (nat * V) -> Prop) : ha_ok alg A B M rspec est skips ->
  (forall i, i < rows A -> R i (rspec i)) -> product_matrix A B (assemble rspec (rows A) (cols B)) R.
Proof.
  intros Hok HR. split; [apply assemble_wf; intros i c v Hi Hin; eapply hk_cols; eauto|]. split; [reflexivity|]. split; [reflexivity|].
  intros i Hi. rewrite assemble_row by exact Hi. apply HR, Hi.
Qed.
End St.

(** C48 (MaskedHeap_v0, _v1, _v2: [insp] = 0, 1, 2^64 - 1).  Rows of B and of the mask in order, at least one row, C an
    object of its own: the result has the columns of the masked product, each value the sum of the products in
    some order.  When addop is commutative and associative this is the masked product. *)
Theorem C48_masked_heap_partial :
  forall V (mul add : V -> V -> V) (insp : N) (A B M : csr V), compatible A B M -> sorted_rows B -> sorted_rows M -> 1 <= rows A ->
  (insp <= 1)%N \/ (insp = 2 ^ 64 - 1)%N /\ (N.of_nat (nnz M) < 2 ^ 64 - 1)%N ->
  exists C, yieldsH (maskedHeapAlg mul add insp) A B M C /\
    product_matrix A B C (fun i l => fst <$> l = fst <$> spec_row mul add A B M i /\ forall j v, (j, v) ∈ l -> sum_in_some_order mul add A B i j v) /\
    ((forall a b, add a b = add b a) -> (forall a b c, add a (add b c) = add (add a b) c) ->
     product_matrix A B C (fun i l => l = spec_row mul add A B M i)).
Proof.
  intros V mul add insp A B M Hco HsB HsM Hr Hi. pose proof Hco as [HA HB HM HAB _ _].
  assert (Hok : insp_ok insp (nnz M)) by (unfold insp_ok; destruct Hi as [H|[-> H]]; [left; lia|right; lia]).
  destruct (masked_contract mul add insp A B M Hco HsB HsM Hok) as (rspec & H & Hrow).
  exists (assemble rspec (rows A) (cols B)). split; [eapply contractH; eassumption|]. split.
  - eapply contractH_product; [exact H|]. intros i Hlt. apply Hrow, Hlt.
  - intros Hc Ha. eapply contractH_product; [exact H|]. intros i Hlt. destruct (Hrow i Hlt) as [H1 H2]. apply (heap_row_unique mul add A B M i _ Hc Ha H2 H1).
Qed.
Print Assumptions C48_masked_heap_partial.

(** C48 (BasicHeap, HeapLinear).  B's rows in order, fewer than 2^31 products: row [i] of the result has the columns
    in which A*B has a product, in increasing order, each value the sum of the products in some order. *)
Definition full_row {V} (mul add : V -> V -> V) (A B : csr V) (i : nat) (l : list (nat * V)) : Prop :=
  StronglySorted lt (fst <$> l) /\ (forall j, j ∈ (fst <$> l) <-> products mul (row_entries A i) (row_entries B) j <> []) /\
  forall j v, (j, v) ∈ l -> sum_in_some_order mul add A B i j v.
Lemma touched_products {V} (mul : V -> V -> V) (A B : csr V) i j : products mul (row_entries A i) (row_entries B) j <> [] <-> j ∈ touched_cols A B i.
Proof.
  unfold products, touched_cols. split.
  - intros H. destruct (mjoin _) as [|v l] eqn:E; [contradiction|]. assert (Hv : v ∈ v :: l) by left. rewrite <- E in Hv.
    apply elem_of_list_join in Hv as (l' & Hv & Hl). apply elem_of_list_fmap in Hl as (ka & -> & Hka).
    apply elem_of_list_fmap in Hv as (cb & _ & Hcb). apply elem_of_list_filter in Hcb as [<- Hcb].
    apply elem_of_list_join. exists (row_cols B (fst ka)). split; [apply elem_of_list_fmap_1; exact Hcb|]. apply elem_of_list_fmap. eauto.
  - intros H E. apply elem_of_list_join in H as (l & Hj & Hl). apply elem_of_list_fmap in Hl as (ka & -> & Hka).
    apply elem_of_list_fmap in Hj as (cb & -> & Hcb).
    assert (Hin : mul (snd ka) (snd cb) ∈ mjoin ((fun ka => (fun cb' => mul (snd ka) (snd cb')) <$> filter (fun cb' => fst cb' = fst cb) (row_entries B (fst ka))) <$> row_entries A i)).
    { apply elem_of_list_join. eexists. split; [|apply elem_of_list_fmap; exists ka; split; [reflexivity|exact Hka]].
      apply elem_of_list_fmap. exists cb. split; [reflexivity|]. apply elem_of_list_filter. auto. }
    rewrite E in Hin. inversion Hin.
Qed.
Lemma lin_full {V} (mul add : V -> V -> V) (A B : csr V) i l : lin_row mul add A B i l -> full_row mul add A B i l.
Proof.
  intros (H1 & H2 & H3). split; [exact H1|]. split; [|exact H3]. intros j. rewrite H2. symmetry. apply touched_products.
Qed.
Theorem C48_unmasked_heap_partial :
  forall V (mul add : V -> V -> V) (thr : nat) (A B : csr V), wf A -> wf B -> cols A = rows B -> sorted_rows B -> 1 <= rows A ->
  (N.of_nat (sum_list (nprods A B <$> seq 0 (rows A))) < 2 ^ 31)%N ->
  exists C C', yieldsU (basicAlg mul add) A B C /\ yieldsU (linearAlg mul add thr) A B C' /\
    product_matrix A B C (full_row mul add A B) /\ product_matrix A B C' (full_row mul add A B) /\
    ((forall a b, add a b = add b a) -> (forall a b c, add a (add b c) = add (add a b) c) -> C = C').
Proof.
  intros V mul add thr A B HA HB Hc HsB Hr Hb.
  destruct (basic_contract mul add A B (mkCsr 0 0 0 [] [] []) HA HB Hc HsB Hb) as (r1 & H1 & R1).
  destruct (linear_contract mul add thr A B (mkCsr 0 0 0 [] [] []) HA HB Hc HsB Hb) as (r2 & H2 & R2).
  exists (assemble r1 (rows A) (cols B)), (assemble r2 (rows A) (cols B)).
  split; [eapply contractU; eassumption|]. split; [eapply contractU; eassumption|].
  split; [eapply contractH_product; [exact H1|]; intros i Hi; apply lin_full, R1, Hi|].
  split; [eapply contractH_product; [exact H2|]; intros i Hi; apply lin_full, R2, Hi|].
  intros Ec Ea. apply assemble_ext. intros i Hi. destruct (R1 i Hi) as (S1 & K1 & V1). destruct (R2 i Hi) as (S2 & K2 & V2).
  assert (E : fst <$> r1 i = fst <$> r2 i) by (apply sorted_lt_unique; [assumption..|intros j; rewrite K1, K2; reflexivity]).
  assert (W1 : forall j v, (j, v) ∈ r1 i -> prod_entry mul add A B i j = Some v) by (intros; apply (some_order_unique add Ec Ea); auto).
  assert (W2 : forall j v, (j, v) ∈ r2 i -> prod_entry mul add A B i j = Some v) by (intros; apply (some_order_unique add Ec Ea); auto).
  revert E W1 W2. generalize (r1 i) (r2 i). clear. induction l as [|[j v] l IH]; intros [|[j' v'] k] E W1 W2; [reflexivity|discriminate|discriminate|].
  rewrite !fmap_cons in E. cbn in E. injection E as <- E. pose proof (W1 j v ltac:(left)). pose proof (W2 j v' ltac:(left)).
  f_equal; [congruence|]. apply IH; auto; intros ? ? ?; [apply W1|apply W2]; right; assumption.
Qed.
Print Assumptions C48_unmasked_heap_partial.

(** C48 (MCA_v1, MCA_v2, MCA_v3).  The result is the masked product, provided that (1) the first column of each row of B that
    is used stands at the same place in A's column array (v1, v2); (2) rows with an empty mask row have no products
    (v1, v3); (3) no product falls behind the first [n] columns of the mask row, [n] the number of products of the
    row.  The findings below show what happens otherwise. *)
Theorem C48_mca_partial :
  forall V (mul add : V -> V -> V) (v : mcaVersion) (A B M : csr V), compatible A B M -> sorted_rows B -> sorted_rows M -> 1 <= rows A ->
  (v <> MV3 -> forall i k bb, i < rows A -> k ∈ row_cols A i -> rowptr B !! k = Some bb ->
     exists key, colids A !! bb = Some key /\ (row_cols B k = [] \/ colids B !! bb = Some key)) ->
  (v <> MV2 -> forall i, i < rows A -> row_cols M i = [] -> nprods A B i = 0) ->
  (forall i p c, i < rows A -> row_cols M i !! p = Some c -> products mul (row_entries A i) (row_entries B) c <> [] -> p < nprods A B i) ->
  exists C, yieldsH (mcaAlgG mul add v) A B M C /\ product_matrix A B C (fun i l => l = spec_row mul add A B M i).
Proof.
  intros V mul add v A B M Hco HsB HsM Hr Hk He Hroom. pose proof Hco as [HA HB HM HAB _ _].
  assert (H : ha_ok (mcaAlgG mul add v) A B M (spec_row mul add A B M) (mEst A B M) (fun _ => false)).
  { apply mca_contract; [assumption..| | |].
    - intros Hv i k a bb Hi Hin Hb. apply (Hk Hv i k bb Hi); [|exact Hb]. apply elem_of_list_fmap. exists (k, a). auto.
    - intros Hv i Hi E. apply length_zero_iff_nil. rewrite <- PropBin.nprods_touched. apply He; assumption.
    - intros i p c Hi Hp Hc. rewrite <- PropBin.nprods_touched. apply (Hroom i p c Hi Hp). apply touched_products. exact Hc. }
  exists (assemble (spec_row mul add A B M) (rows A) (cols B)). split; [eapply contractH; eassumption|].
  eapply contractH_product; [exact H|]. reflexivity.
Qed.
Print Assumptions C48_mca_partial.

(** All three are met by A*A masked by A (C = L.*(L*L), as in triangle counting) when every row that is used has entries. *)
Theorem C48_mca_square :
  forall V (mul add : V -> V -> V) (v : mcaVersion) (A : csr V), wf A -> cols A = rows A -> sorted_rows A -> 1 <= rows A ->
  (forall i k, i < rows A -> k ∈ row_cols A i -> row_cols A k <> []) ->
  exists C, yieldsH (mcaAlgG mul add v) A A A C /\ product_matrix A A C (fun i l => l = spec_row mul add A A A i).
Proof.
  intros V mul add v A HA Hsq Hs Hr Hne. apply C48_mca_partial; [constructor; auto|exact Hs|exact Hs|exact Hr| | |].
  - intros _ i k bb Hi Hk Hb. assert (HkA : k < rows A) by (rewrite <- Hsq; eapply row_cols_range; eassumption).
    destruct (row_bounds_wf A k HA HkA) as (b & e & Hb' & He & Hle & Hn & _). rewrite Hb in Hb'. injection Hb' as <-.
    pose proof (row_entries_length A k bb e HA HkA Hb He) as Hl. rewrite <- row_cols_length in Hl.
    assert (e - bb <> 0) by (rewrite <- Hl; intros E; apply length_zero_iff_nil in E; exact (Hne i k Hi Hk E)).
    destruct (colids A !! bb) as [key|] eqn:E; [exists key; auto|]. apply lookup_ge_None in E. rewrite (wf_colids _ HA) in E. lia.
  - intros _ i Hi E. rewrite nprods_touched. unfold touched_cols. unfold row_cols in E. destruct (row_entries A i); [reflexivity|discriminate].
  - intros i p c Hi Hp _. apply lookup_lt_Some in Hp. rewrite row_cols_length in Hp. eapply Nat.lt_le_trans; [exact Hp|].
    assert (Hall : forall l, (forall ka, ka ∈ l -> row_cols A (fst ka) <> []) -> length l <= length (mjoin ((fun ka : nat * V => row_cols A (fst ka)) <$> l))).
    { induction l as [|ka l IH]; intros Hl; [simpl; lia|]. rewrite fmap_cons, mjoin_cons, app_length. simpl.
      pose proof (IH ltac:(intros; apply Hl; right; assumption)). pose proof (Hl ka ltac:(left)) as Hka. destruct (row_cols A (fst ka)); [contradiction|]. simpl. lia. }
    rewrite nprods_touched. apply Hall. intros [k a] Hka. apply (Hne i k Hi). apply elem_of_list_fmap. exists (k, a). auto.
Qed.
Print Assumptions C48_mca_square.

(** ** Data races *)
(** The parallel region of the call has no data race, in any interleaving. *)
Definition driverH_race_free {V} (alg : halg V) (top nts iA iB iM iC nt : nat) (s : gmap nat (obj V)) : Prop :=
  exists s1 A B, hResetC iA iB iC s = Ok s1 /\ deref s1 iA = Ok A /\ deref s1 iB = Ok B /\
  exists flops total, parfor_always (flopsRow A B) (rows A) (replicate (rows A) (Some 0)) (Some <$> flops) total /\
  exists st cum, set_ (replicate (rows A) (Some 0)) 0 (Some 0) = Ok st /\ lScan_always 0 Nat.add top flops (rows A) nts st (Some <$> cum) /\
  region_race_free (regionH alg iA iB iM iC nt flops cum (total * 2 / 2)) s1 (startMemH (rows A) nt) (replicate nt (mkT1 0 0 [])).
(** Every thread but the last is given at least one row: rows are cut where the products of the rows before them
    reach the thread's share. *)
Definition heap_busy {V} (A B : csr V) (nt : nat) : Prop :=
  forall t, t + 1 < nt -> exists rb re,
    distributeWork (sum_list (nprods A B <$> seq 0 (rows A))) ((fun i => sum_list (nprods A B <$> seq 0 i)) <$> seq 0 (rows A)) (rows A) nt t = Ok (rb, re) /\ rb < re.

Lemma hcum_prefix {V} (A B : csr V) : hcum A B = (fun i => sum_list (nprods A B <$> seq 0 i)) <$> seq 0 (rows A).
Proof.
  unfold hcum, hflops. apply list_fmap_ext. intros k i Hi. apply lookup_seq in Hi as [-> Hk]. cbn [Nat.add].
  rewrite fold_add_perm, <- fmap_take. f_equal. f_equal. rewrite <- (Nat.sub_add k (rows A)) by lia. rewrite Nat.add_comm, seq_app, take_app_alt by (rewrite seq_length; reflexivity). reflexivity.
Qed.

Lemma raceH {V} (alg : halg V) A B M rspec est skips top nts nt iA iB iM iC C0 s : wf A -> wf B -> cols A = rows B -> 1 <= rows A ->
  ha_ok alg A B M rspec est skips -> 1 <= nt -> 1 <= nts -> nts <= rows A \/ (N.of_nat (rows A) < 2 ^ 17)%N ->
  s !! iA = Some (OMat A) -> s !! iB = Some (OMat B) -> s !! iM = Some (OMat M) -> s !! iC = Some (OMat C0) ->
  iC <> iA -> iC <> iB -> iC <> iM ->
  driverH_race_free alg top nts iA iB iM iC nt s <-> heap_busy A B nt.
Proof.
  intros HA HB Hc Hr Hok Hnt Hnts Hn EA EB EM EC N1 N2 N3.
  destruct (hReset_ok A B M iA iB iM iC C0 s EA EB EM EC N1 N2 N3) as (x & Hs1 & Hdim).
  set (s1 := <[iC := x]> s) in *.
  assert (EA1 : s1 !! iA = Some (OMat A)) by (unfold s1; rewrite lookup_insert_ne by congruence; exact EA).
  assert (EB1 : s1 !! iB = Some (OMat B)) by (unfold s1; rewrite lookup_insert_ne by congruence; exact EB).
  assert (EM1 : s1 !! iM = Some (OMat M)) by (unfold s1; rewrite lookup_insert_ne by congruence; exact EM).
  pose proof (hflops_ok A B HA HB Hc Hr nt Hnt) as Hfl. pose proof (hscan_ok A B Hc Hr nt Hnt top nts Hnts Hn) as Hsc.
  destruct (distribute_ok (htotal A B) (hcum A B) (rows A) nt ltac:(rewrite hcum_length; lia) Hnt) as (cut & C0' & Cn & Cm & Hd).
  pose proof (regionH_race alg A B M rspec est skips Hc Hok Hr nt Hnt iA iB iM iC s1 (hcum A B) (htotal A B) cut EA1 EB1 EM1 Hdim C0' Cn Cm Hd) as Hrr.
  assert (Hb : heap_busy A B nt <-> (forall t, t + 1 < nt -> cut t < cut (t + 1))).
  { unfold heap_busy. rewrite <- hcum_prefix. apply (busy_cut A nt Hnt Hr (hcum A B) (htotal A B) cut Hd). }
  assert (Hst : set_ (replicate (rows A) (Some 0)) 0 (Some 0) = Ok (<[0 := Some 0]> (replicate (rows A) (Some 0)))) by (apply set_Ok; rewrite replicate_length; lia).
  assert (Ht2 : htotal A B * 2 / 2 = htotal A B) by (rewrite Nat.div_mul; lia).
  rewrite Hb, <- Hrr. split.
  - intros (s1' & A' & B' & H1 & H2 & H3 & fl & tot & Hp & st & cum & H4 & H5 & HR). rewrite Hs1 in H1. injection H1 as <-.
    rewrite (deref_mat _ _ _ EA1) in H2. injection H2 as <-. rewrite (deref_mat _ _ _ EB1) in H3. injection H3 as <-.
    destruct (parfor_always_unique _ _ _ _ _ _ _ Hp Hfl) as [E ->]. apply (inj (fmap Some)) in E as ->.
    rewrite Hst in H4. injection H4 as <-. pose proof (lscan_unique _ _ _ _ _ _ _ H5 Hsc) as ->. rewrite Ht2 in HR. exact HR.
  - intros HR. exists s1, A, B. split; [exact Hs1|]. split; [apply deref_mat, EA1|]. split; [apply deref_mat, EB1|].
    exists (hflops A B), (htotal A B). split; [exact Hfl|]. eexists _, (hcum A B). split; [exact Hst|]. split; [exact Hsc|]. rewrite Ht2. exact HR.
Qed.

Lemma heap_not_busy {V} (A B : csr V) nt : 1 <= rows A -> rows A + 1 < nt -> ~ heap_busy A B nt.
Proof.
  intros Hr Hlt Hb. unfold heap_busy in Hb. rewrite <- hcum_prefix in Hb. change (sum_list (nprods A B <$> seq 0 (rows A))) with (htotal A B) in Hb.
  destruct (distribute_ok (htotal A B) (hcum A B) (rows A) nt ltac:(rewrite hcum_length; lia) ltac:(lia)) as (cut & C0' & Cn & Cm & Hd).
  rewrite (busy_cut A nt ltac:(lia) Hr (hcum A B) (htotal A B) cut Hd) in Hb.
  assert (Hge : forall k, k + 1 <= nt -> k <= cut k).
  { induction k as [|k IH]; [lia|]. intros Hk. specialize (IH ltac:(lia)). specialize (Hb k ltac:(lia)). replace (S k) with (k + 1) by lia. lia. }
  specialize (Hge (nt - 1) ltac:(lia)). pose proof (Cm (nt - 1) ltac:(lia)) as H. replace (nt - 1 + 1) with nt in H by lia. lia.
Qed.

(** C48 (races): the region is free of data races exactly when every thread but the last has a row. *)
Theorem C48_races :
  forall V (mul add : V -> V -> V) (insp : N) (v : mcaVersion) (A B M : csr V) top nts nt iA iB iM iC C0 (s : gmap nat (obj V)),
  compatible A B M -> sorted_rows B -> sorted_rows M -> 1 <= rows A -> 1 <= nt -> 1 <= nts -> nts <= rows A \/ (N.of_nat (rows A) < 2 ^ 17)%N ->
  s !! iA = Some (OMat A) -> s !! iB = Some (OMat B) -> s !! iM = Some (OMat M) -> s !! iC = Some (OMat C0) ->
  iC <> iA -> iC <> iB -> iC <> iM ->
  ((insp <= 1)%N \/ (insp = 2 ^ 64 - 1)%N /\ (N.of_nat (nnz M) < 2 ^ 64 - 1)%N ->
   driverH_race_free (maskedHeapAlg mul add insp) top nts iA iB iM iC nt s <-> heap_busy A B nt) /\
  ((v <> MV3 -> mca_keys A B) -> (v <> MV2 -> forall i, i < rows A -> row_cols M i = [] -> touched_cols A B i = []) -> mca_room A B M ->
   driverH_race_free (mcaAlgG mul add v) top nts iA iB iM iC nt s <-> heap_busy A B nt).
Proof.
  intros V mul add insp v A B M top nts nt iA iB iM iC C0 s Hco HsB HsM Hr Hnt Hnts Hn EA EB EM EC N1 N2 N3. pose proof Hco as [HA HB HM HAB _ _]. split.
  - intros Hi. assert (Hok : insp_ok insp (nnz M)) by (unfold insp_ok; destruct Hi as [H|[-> H]]; [left; lia|right; lia]).
    destruct (masked_contract mul add insp A B M Hco HsB HsM Hok) as (rspec & H & _). eapply raceH; eassumption.
  - intros H1 H2 H3. eapply raceH; try eassumption. apply mca_contract; assumption.
Qed.
Print Assumptions C48_races.

(** Finding: with more than rows + 1 threads there is always a data race (numThreads is never compared with the rows). *)
Theorem C48_race_refuted :
  forall V (mul add : V -> V -> V) (insp : N) (A B M : csr V) top nts nt iA iB iM iC C0 (s : gmap nat (obj V)),
  compatible A B M -> sorted_rows B -> sorted_rows M -> 1 <= rows A -> rows A + 1 < nt -> 1 <= nts -> nts <= rows A \/ (N.of_nat (rows A) < 2 ^ 17)%N ->
  s !! iA = Some (OMat A) -> s !! iB = Some (OMat B) -> s !! iM = Some (OMat M) -> s !! iC = Some (OMat C0) ->
  iC <> iA -> iC <> iB -> iC <> iM -> (insp <= 1)%N ->
  ~ driverH_race_free (maskedHeapAlg mul add insp) top nts iA iB iM iC nt s.
Proof.
  intros V mul add insp A B M top nts nt iA iB iM iC C0 s Hco HsB HsM Hr Hlt Hnts Hn EA EB EM EC N1 N2 N3 Hi HR.
  destruct (C48_races V mul add insp MV1 A B M top nts nt iA iB iM iC C0 s) as [H _]; try assumption; [lia|].
  apply (heap_not_busy A B nt Hr Hlt), H; [left; exact Hi|exact HR].
Qed.
Print Assumptions C48_race_refuted.

(** ** Findings *)
(** MCA_v1 and MCA_v2 look up the first column of a row of B in A's column array (525, 597).  If that array is shorter, the
    call reads past its end, whatever the mask: it is enough that A has an entry in column k and that B has at least
    nnz(A) entries above row k. *)
Theorem C48_mca_keys_refuted :
  forall V (mul add : V -> V -> V) (v : mcaVersion) (A B M : csr V) top nts nt iA iB iM iC (s : gmap nat (obj V)) i k bb,
  v = MV1 \/ v = MV2 -> wf A -> wf B -> i < rows A -> k ∈ row_cols A i -> rowptr B !! k = Some bb -> nnz A <= bb -> 1 <= nt ->
  s !! iA = Some (OMat A) -> s !! iB = Some (OMat B) -> s !! iM = Some (OMat M) -> iC <> iA -> iC <> iB -> iC <> iM ->
  ~ exists s', HeapSpGEMMImpl_always (mcaAlgG mul add v) top nts iA iB iM iC nt s s'.
Proof.
  intros V mul add v A B M top nts nt iA iB iM iC s i k bb Hv HA HB Hi Hk Hb Hn Hnt EA EB EM N1 N2 N3.
  eapply (driverH_stuck_row (mcaAlgG mul add v) A B); try eassumption.
  intros aux L r. cbn.
  eapply mcaRow_keys_stuck; try eassumption. destruct Hv as [-> | ->]; discriminate.
Qed.
Print Assumptions C48_mca_keys_refuted.
(** A = [0 5] times B = [7 0; 0 9]. *)
Example C48_mca_keys_example :
  let A := mkCsr 1 2 1 [0;1] [1] [5]%Z in let B := mkCsr 2 2 2 [0;1;2] [0;1] [7;9]%Z in let M := mkCsr 1 2 1 [0;1] [1] [1]%Z in
  compatible A B M /\ spec_row Z.mul Z.add A B M 0 = [(1, 45%Z)] /\
  ~ exists s', HeapSpGEMMImpl_always (mcaAlgG Z.mul Z.add MV1) 255 1 0 1 2 3 1 {[0 := OMat A; 1 := OMat B; 2 := OMat M; 3 := OMat M]} s'.
Proof.
  cbv zeta. split; [constructor; [prove_wf..|reflexivity|reflexivity|reflexivity]|]. split; [reflexivity|].
  eapply (C48_mca_keys_refuted Z Z.mul Z.add MV1 (mkCsr 1 2 1 [0;1] [1] [5]%Z) (mkCsr 2 2 2 [0;1;2] [0;1] [7;9]%Z) (mkCsr 1 2 1 [0;1] [1] [1]%Z)) with (i := 0) (k := 1) (bb := 1);
    [left; reflexivity|prove_wf|prove_wf|cbn; lia|cbn; left|reflexivity|cbn; lia|lia|reflexivity..|discriminate|discriminate|discriminate].
Qed.

(** Otherwise the product is put into a wrong column: A = [a], B = [0 b], mask [1 1] gives [ab 0]. *)
Theorem C48_mca_wrong_column_refuted :
  forall V (mul add : V -> V -> V) (v : mcaVersion) (a b x y : V), v = MV1 \/ v = MV2 ->
  let A := mkCsr 1 1 1 [0;1] [0] [a] in let B := mkCsr 1 2 1 [0;1] [1] [b] in let M := mkCsr 1 2 2 [0;2] [0;1] [x;y] in
  compatible A B M /\ sorted_rows B /\ sorted_rows M /\ spec_row mul add A B M 0 = [(1, mul a b)] /\
  yieldsH (mcaAlgG mul add v) A B M (mkCsr 1 2 1 [0;1] [0] [mul a b]).
Proof.
  intros V mul add v a b x y Hv A B M.
  assert (Hw1 : forall nc c (z : V), c < nc -> wf (mkCsr 1 nc 1 [0;1] [c] [z])).
  { intros nc c z Hc. constructor; try reflexivity.
    - intros i p q Hp Hq. destruct i as [|[|i]]; cbn in Hp, Hq; [injection Hp as <-; injection Hq as <-; lia|discriminate|discriminate].
    - intros p k Hp. destruct p as [|p]; cbn in Hp; [injection Hp as <-; exact Hc|discriminate]. }
  assert (HA : wf A) by (apply Hw1; lia). assert (HB : wf B) by (apply Hw1; lia).
  assert (HM : wf M) by (unfold M; clear; prove_wf).
  assert (Hs1 : forall nc c (z : V), sorted_rows (mkCsr 1 nc 1 [0;1] [c] [z])).
  { intros nc c z i Hi. cbn in Hi. assert (i = 0) as -> by lia. repeat constructor. }
  assert (HsM : sorted_rows M) by (intros i Hi; cbn in Hi; assert (i = 0) as -> by lia; vm_compute; repeat constructor; lia).
  assert (Hco : compatible A B M) by (constructor; [assumption..|reflexivity|reflexivity|reflexivity]).
  split; [exact Hco|]. split; [apply Hs1|]. split; [exact HsM|]. split; [reflexivity|].
  set (B' := mkCsr 1 2 1 [0;1] [0] [b]).
  assert (HB' : wf B') by (apply Hw1; lia).
  assert (Hco' : compatible A B' M) by (constructor; [assumption..|reflexivity|reflexivity|reflexivity]).
  assert (Hok' : ha_ok (mcaAlgG mul add v) A B' M (spec_row mul add A B' M) (mEst A B' M) (fun _ => false)).
  { apply mca_contract; [exact Hco'|apply Hs1|exact HsM| | |].
    - intros _ i k w bb Hi Hk Hb. cbn in Hi. assert (i = 0) as -> by lia. apply elem_of_list_singleton in Hk. injection Hk as -> ->. cbn in Hb. injection Hb as <-.
      exists 0. split; [reflexivity|right; reflexivity].
    - intros _ i Hi E. cbn in Hi. assert (i = 0) as -> by lia. discriminate.
    - intros i p c Hi Hp Hc. cbn in Hi. assert (i = 0) as -> by lia. apply elem_of_list_singleton in Hc as ->.
      destruct p as [|[|p]]; cbn in Hp; [cbn; lia|discriminate|discriminate]. }
  assert (Hok : ha_ok (mcaAlgG mul add v) A B M (spec_row mul add A B' M) (mEst A B' M) (fun _ => false)).
  { destruct Hok' as [K1 K2 K3 K4 K5]. constructor; [exact K1|exact K2|exact K3|exact K4|].
    intros rb re Hre. destruct (K5 rb re Hre) as (aux & Inv & P1 & P2 & P3). exists aux, Inv. split; [exact P1|]. split; [exact P2|].
    intros i fl cap L dn Hi H1 H2 H3. specialize (P3 i fl cap L dn Hi H1 H2 H3). cbn in Hre. assert (i = 0) as -> by lia.
    assert (E : ha_row (mcaAlgG mul add v) A B M 0 fl L = ha_row (mcaAlgG mul add v) A B' M 0 fl L); [|rewrite E; exact P3].
    destruct Hv as [-> | ->]; reflexivity. }
  assert (E : mkCsr 1 2 1 [0;1] [0] [mul a b] = assemble (spec_row mul add A B' M) (rows A) (cols B)) by reflexivity.
  rewrite E. eapply contractH; [exact HA|exact HB|reflexivity|cbn; lia|exact Hok].
Qed.
Print Assumptions C48_mca_wrong_column_refuted.

(** MCA_v1 and MCA_v3 read the first mask column of a row that has none.  If the empty mask row is behind all entries of
    the mask and the row has a product, that cell does not exist. *)
Theorem C48_mca_empty_mask_refuted :
  forall V (mul add : V -> V -> V) (v : mcaVersion) (A B M : csr V) top nts nt iA iB iM iC (s : gmap nat (obj V)) i k,
  v = MV1 \/ v = MV3 -> compatible A B M -> i < rows A -> k ∈ row_cols A i -> row_cols B k <> [] -> rowptr M !! i = Some (nnz M) -> 1 <= nt ->
  s !! iA = Some (OMat A) -> s !! iB = Some (OMat B) -> s !! iM = Some (OMat M) -> iC <> iA -> iC <> iB -> iC <> iM ->
  ~ exists s', HeapSpGEMMImpl_always (mcaAlgG mul add v) top nts iA iB iM iC nt s s'.
Proof.
  intros V mul add v A B M top nts nt iA iB iM iC s i k Hv Hco Hi Hk Hne Hm Hnt EA EB EM N1 N2 N3. pose proof Hco as [HA HB HM HAB _ _].
  eapply (driverH_stuck_row (mcaAlgG mul add v) A B); try eassumption.
  intros aux L r. cbn.
  eapply mcaRow_mask_stuck; try eassumption. destruct Hv as [-> | ->]; discriminate.
Qed.
Print Assumptions C48_mca_empty_mask_refuted.
(** exA, exB with a mask whose last row is empty. *)
Example C48_mca_empty_mask_example :
  let M := mkCsr 3 4 2 [0;1;2;2] [0;1] [1;1]%Z in
  compatible exA exB M /\ ~ exists s', HeapSpGEMMImpl_always (mcaAlgG Z.mul Z.add MV3) 255 1 0 1 2 3 2 {[0 := OMat exA; 1 := OMat exB; 2 := OMat M; 3 := OMat exB]} s'.
Proof.
  cbv zeta. assert (Hco : compatible exA exB (mkCsr 3 4 2 [0;1;2;2] [0;1] [1;1]%Z)) by (constructor; [exact exA_wf|exact exB_wf|prove_wf|reflexivity..]).
  split; [exact Hco|]. eapply (C48_mca_empty_mask_refuted Z Z.mul Z.add MV3 exA exB _) with (i := 2) (k := 1);
    [right; reflexivity|exact Hco|cbn; lia|cbn; left|discriminate|reflexivity|lia|reflexivity..|discriminate|discriminate|discriminate].
Qed.

(** The room of a row in the local arrays is the smaller one of the number of products and the length of the mask row, but a
    product is stored at the place of its column in the mask row.  The lower triangle of a graph with five
    vertices and the edges 2-3, 0-4, 1-4, 2-4, 3-4, squared and masked by itself: every version writes past the end. *)
Definition exL {V} (w : nat -> V) : csr V := mkCsr 5 5 5 [0;0;0;0;1;5] [2;0;1;2;3] (w <$> seq 0 5).
Lemma exL_rows {V} (mul add : V -> V -> V) v (w : nat -> V) rb : rb <= 4 ->
  ha_est (mcaAlgG mul add v) (hflops (exL w) (exL w)) (exL w) rb 5 = Ok 1 /\
  ha_alloc (mcaAlgG mul add v) (exL w) (exL w) rb 5 = Ok (replicate 4 false) /\
  noret (pfor rb 5 (rowH (mcaAlgG mul add v) (exL w) (exL w) (exL w)) (replicate 4 false, lnew 1, 0)).
Proof. intros H. destruct v; do 5 (destruct rb as [|rb]; [repeat split; vm_compute; exact I|]); lia. Qed.
Theorem C48_mca_overflow_refuted :
  forall V (mul add : V -> V -> V) (v : mcaVersion) (w : nat -> V) top nts nt iA iB iM iC (s : gmap nat (obj V)), 1 <= nt ->
  s !! iA = Some (OMat (exL w)) -> s !! iB = Some (OMat (exL w)) -> s !! iM = Some (OMat (exL w)) -> iC <> iA -> iC <> iB -> iC <> iM ->
  compatible (exL w) (exL w) (exL w) /\ sorted_rows (exL w) /\ spec_row mul add (exL w) (exL w) (exL w) 4 = [(2, mul (w 4) (w 0))] /\
  ~ exists s', HeapSpGEMMImpl_always (mcaAlgG mul add v) top nts iA iB iM iC nt s s'.
Proof.
  intros V mul add v w top nts nt iA iB iM iC s Hnt EA EB EM N1 N2 N3.
  assert (HL : wf (exL w)) by (unfold exL; prove_wf).
  split; [constructor; auto|]. split; [intros i Hi; cbn in Hi; do 5 (destruct i as [|i]; [vm_compute; repeat constructor; lia|]); lia|]. split; [reflexivity|].
  intros (s' & Hs). destruct (driverH_region _ _ _ _ _ _ _ _ _ _ Hs) as (s1 & A' & B' & flops & cum & total & Hr & HA' & HB' & _ & Hc & Hfl & Hn).
  assert (FA : deref s1 iA = Ok (exL w)) by (apply deref_mat; rewrite (hResetC_other _ _ _ _ _ iA Hr) by congruence; exact EA).
  assert (FB : deref s1 iB = Ok (exL w)) by (apply deref_mat; rewrite (hResetC_other _ _ _ _ _ iB Hr) by congruence; exact EB).
  assert (FM : deref s1 iM = Ok (exL w)) by (apply deref_mat; rewrite (hResetC_other _ _ _ _ _ iM Hr) by congruence; exact EM).
  rewrite FA in HA'. injection HA' as <-. rewrite FB in HB'. injection HB' as <-. rewrite (Hfl HL HL eq_refl) in Hn.
  destruct (distribute_ok total cum 5 nt ltac:(cbn in Hc; lia) Hnt) as (cut & C0 & Cn & Cm & Hd).
  destruct (cut_cover cut nt 4 C0 ltac:(lia)) as (t & Ht & Hct).
  assert (Hcn : cut (t + 1) <= 5) by (rewrite <- Cn; apply (cut_le cut nt); [exact Cm|lia]).
  assert (E5 : cut (t + 1) = 5) by lia. destruct (exL_rows mul add v w (cut t) ltac:(lia)) as (Q1 & Q2 & Q3).
  apply (Hn t Ht). unfold numericH.
  apply noret_lift. rewrite FA. intros A2 E. injection E as <-.
  apply noret_lift. rewrite FB. intros B2 E. injection E as <-.
  apply noret_lift. rewrite FM. intros M2 E. injection E as <-.
  apply noret_lift. change (rows (exL w)) with 5. rewrite (Hd t Ht), E5. intros [rb re] E. injection E as <- <-.
  apply noret_lift. rewrite Q1. intros est E. injection E as <-. apply noret_lift. rewrite Q2. intros aux E. injection E as <-.
  apply noret_bind_l. exact Q3.
Qed.
Print Assumptions C48_mca_overflow_refuted.

(** A matrix without rows: the scan stores to the first of no cells (743). *)
Theorem C48_zero_rows_refuted :
  forall V (alg : halg V) A top nts nt iA iB iM iC (s : gmap nat (obj V)), rows A = 0 -> s !! iA = Some (OMat A) -> iC <> iA ->
  ~ exists s', HeapSpGEMMImpl_always alg top nts iA iB iM iC nt s s'.
Proof.
  intros V alg A top nts nt iA iB iM iC s H0 EA N1 (s' & Hs).
  destruct (driverH_region _ _ _ _ _ _ _ _ _ _ Hs) as (s1 & A' & B' & flops & cum & total & Hr & HA' & _ & Hne & _).
  assert (FA : deref s1 iA = Ok A) by (apply deref_mat; rewrite (hResetC_other _ _ _ _ _ iA Hr) by congruence; exact EA).
  rewrite FA in HA'. injection HA' as <-. contradiction.
Qed.
Print Assumptions C48_zero_rows_refuted.

(** C with entries that is also an operand or the mask: it is released before it is read (730). *)
Theorem C48_alias_refuted :
  forall V (alg : halg V) C0 top nts nt iA iB iM iC (s : gmap nat (obj V)), 1 <= nt -> s !! iC = Some (OMat C0) -> nnz C0 <> 0 ->
  iC = iA \/ iC = iB \/ iC = iM -> ~ exists s', HeapSpGEMMImpl_always alg top nts iA iB iM iC nt s s'.
Proof. intros V alg C0 top nts nt iA iB iM iC s Hnt EC Hz Hal (s' & Hs). eapply driverH_alias; eassumption. Qed.
Print Assumptions C48_alias_refuted.

(** BasicHeap and HeapLinear: the number of products of a thread's rows is added up in an int (68).  With one thread and a number
    whose last 32 bits make a negative int, the arrays cannot be allocated. *)
Theorem C48_estimate_refuted :
  forall V (mul add : V -> V -> V) thr (A B : csr V) top nts iA iB iM iC (s : gmap nat (obj V)), wf A -> wf B -> cols A = rows B ->
  s !! iA = Some (OMat A) -> s !! iB = Some (OMat B) -> s !! iM = None -> iC <> iA -> iC <> iB -> iC <> iM ->
  (2 ^ 31 <= N.of_nat (sum_list (nprods A B <$> seq 0 (rows A))) mod 2 ^ 32)%N ->
  ~ exists s', HeapSpGEMM_unmasked_always (linearAlg mul add thr) top nts iA iB iM iC 1 s s'.
Proof.
  intros V mul add thr A B top nts iA iB iM iC s HA HB Hc EA EB EM N1 N2 N3 Hb (s' & s1 & Hs & _).
  assert (N4 : iM <> iA) by congruence. assert (N5 : iM <> iB) by congruence.
  revert Hs. intros Hs. eapply (driverH_stuck_est (linearAlg mul add thr) A B HA HB Hc); [| | | | | | |exists s1; exact Hs];
    [rewrite lookup_insert_ne by assumption; exact EA|rewrite lookup_insert_ne by assumption; exact EB|apply lookup_insert|assumption..|].
  intros est. cbn [ha_est linearAlg]. rewrite (heapEst_wrap _ _ (nprods A B)).
  - assert (Es : sumOver (nprods A B) 0 (rows A) = sum_list (nprods A B <$> seq 0 (rows A))) by (unfold sumOver; rewrite Nat.sub_0_r; reflexivity).
    rewrite Es. cbv zeta. rewrite (proj2 (N.ltb_ge _ _) Hb). discriminate.
  - lia.
  - intros i Hi. unfold hflops. rewrite list_lookup_fmap, lookup_seq_lt by lia. reflexivity.
Qed.
Print Assumptions C48_estimate_refuted.
(** One row with 2^32 products (or a multiple): the estimate is 0, and the first entry is stored past the end. *)
Theorem C48_estimate_wrap_refuted :
  forall V (mul add : V -> V -> V) thr (A B : csr V) top nts nt iA iB iM iC (s : gmap nat (obj V)), wf A -> wf B -> cols A = rows B -> rows A = 1 -> 1 <= nt ->
  s !! iA = Some (OMat A) -> s !! iB = Some (OMat B) -> s !! iM = None -> iC <> iA -> iC <> iB -> iC <> iM ->
  nprods A B 0 <> 0 -> (N.of_nat (nprods A B 0) mod 2 ^ 32 = 0)%N ->
  ~ exists s', HeapSpGEMM_unmasked_always (linearAlg mul add thr) top nts iA iB iM iC nt s s'.
Proof.
  intros V mul add thr A B top nts nt iA iB iM iC s HA HB Hc Hr1 Hnt EA EB EM N1 N2 N3 Hp Hb (s' & s1 & Hs & _).
  assert (N4 : iM <> iA) by congruence. assert (N5 : iM <> iB) by congruence.
  eapply (driverH_stuck_single (linearAlg mul add thr) A B HA HB Hc); [| | | | | | | | |exists s1; exact Hs];
    [exact Hnt|rewrite lookup_insert_ne by assumption; exact EA|rewrite lookup_insert_ne by assumption; exact EB|apply lookup_insert|assumption..|].
  intros est aux r. cbn [ha_est ha_alloc ha_row linearAlg]. rewrite (heapEst_wrap _ _ (nprods A B)).
  - replace (sumOver (nprods A B) 0 1) with (nprods A B 0) by (unfold sumOver; cbn; lia). cbv zeta. rewrite Hb. intros E. injection E as <-.
    rewrite heapAlloc_ok by (assumption || lia). intros E. injection E as <-. apply linearRow_noroom; try assumption; [lia| |].
    + intros E. apply Hp. rewrite nprods_row_prods, E. reflexivity.
    + cbn [hcap]. apply (maxOver_ge (fun i => length (row_entries A i))). lia.
  - lia.
  - intros i Hi. unfold hflops. rewrite list_lookup_fmap, lookup_seq_lt by lia. reflexivity.
Qed.
Print Assumptions C48_estimate_wrap_refuted.
Example C48_estimate_example : let n := N.to_nat (2 ^ 32) in
  wf (wrapA n) /\ wf (wrapB n) /\ nprods (wrapA n) (wrapB n) 0 <> 0 /\ (N.of_nat (nprods (wrapA n) (wrapB n) 0) mod 2 ^ 32 = 0)%N.
Proof.
  intros n. split; [apply wrapA_wf|]. split; [apply wrapB_wf|]. rewrite wrap_nprods. unfold n. split; [|rewrite N2Nat.id; reflexivity].
  intros E. assert (E2 : N.of_nat (N.to_nat (2 ^ 32)) = 0%N) by (rewrite E; reflexivity). rewrite N2Nat.id in E2. discriminate.
Qed.

(** ** The theorems on a concrete input: an empty row of A, a mask column without a product *)
Example C48_example :
  compatible exA exB exM /\ sorted_rows exB /\ sorted_rows exM /\
  (forall insp, (insp <= 1)%N -> yieldsH (maskedHeapAlg Z.mul Z.add insp) exA exB exM (mkCsr 3 4 3 [0;2;2;3] [0;1;3] [-4;18;-1]%Z)) /\
  (forall thr, yieldsU (linearAlg Z.mul Z.add thr) exA exB (mkCsr 3 4 6 [0;3;3;6] [0;1;3;0;1;3] [-4;18;11;2;29;-1]%Z)) /\
  yieldsH (mcaAlgG Z.mul Z.add MV3) exA exB exM (mkCsr 3 4 3 [0;2;2;3] [0;1;3] [-4;18;-1]%Z).
Proof.
  split; [exact ex_compat|]. split; [exact exB_sorted|]. split; [exact exM_sorted|].
  assert (Hu : forall C f, product_matrix exA exB C (fun i l => l = f i) -> C = assemble f (rows exA) (cols exB)).
  { intros C f (Hw & Hr & Hc & HC). rewrite (wf_assemble C Hw), Hr, Hc. apply assemble_ext. exact HC. }
  split; [|split].
  - intros insp Hi. destruct (C48_masked_heap_partial Z Z.mul Z.add insp exA exB exM ex_compat exB_sorted exM_sorted ltac:(cbn; lia) ltac:(left; exact Hi)) as (C & HC & _ & HP).
    apply Hu in HP as ->; [|exact Z.add_comm|exact Z.add_assoc]. exact HC.
  - intros thr.
    destruct (linear_contract Z.mul Z.add thr exA exB (mkCsr 0 0 0 [] [] []) exA_wf exB_wf eq_refl exB_sorted ltac:(vm_compute; reflexivity)) as (r & H & R).
    assert (E : mkCsr 3 4 6 [0;3;3;6] [0;1;3;0;1;3] [-4;18;11;2;29;-1]%Z = assemble (spec_row Z.mul Z.add exA exB (mkCsr 3 4 12 [0;4;8;12] [0;1;2;3;0;1;2;3;0;1;2;3] (replicate 12 1%Z))) 3 4) by reflexivity.
    rewrite E. clear E. rewrite <- (assemble_ext r) ; [apply (contractU _ exA exB r (nprods exA exB) (fun _ => false)); [exact exA_wf|exact exB_wf|reflexivity|cbn; lia|exact H]|].
    intros i Hi. destruct (R i Hi) as (S1 & K1 & V1). symmetry. symmetry. apply (heap_row_unique Z.mul Z.add exA exB); [exact Z.add_comm|exact Z.add_assoc|exact V1|].
    apply sorted_lt_unique; [exact S1| |].
    + do 3 (destruct i as [|i]; [vm_compute; repeat constructor; lia|]). lia.
    + intros j. rewrite K1. destruct i as [|[|[|i]]]; [| | |lia].
      * change (j ∈ [0;3;0;1;3] <-> j ∈ [0;1;3]). rewrite !elem_of_cons. tauto.
      * change (j ∈ @nil nat <-> j ∈ @nil nat). tauto.
      * change (j ∈ [1;0;1;3] <-> j ∈ [0;1;3]). rewrite !elem_of_cons. tauto.
  - destruct (C48_mca_partial Z Z.mul Z.add MV3 exA exB exM ex_compat exB_sorted exM_sorted) as (C & HC & HP).
    + cbn; lia.
    + intros H. contradiction.
    + intros _ i Hi E. do 3 (destruct i as [|i]; [vm_compute in E; discriminate|]). cbn in Hi. lia.
    + intros i p c Hi Hp Hc. cbn in Hi. destruct i as [|[|[|i]]]; [| | |lia].
      * apply lookup_lt_Some in Hp. vm_compute in Hp. vm_compute. lia.
      * exfalso. apply Hc. reflexivity.
      * apply lookup_lt_Some in Hp. vm_compute in Hp. vm_compute. lia.
    + apply Hu in HP as ->. exact HC.
Qed.

(** The triangle with both directions of every edge, squared and masked by itself, with every version. *)
Definition exK : csr Z := mkCsr 3 3 6 [0;2;4;6] [1;2;0;2;0;1] [1;1;1;1;1;1]%Z.
Example C48_square_example : forall v, yieldsH (mcaAlgG Z.mul Z.add v) exK exK exK exK.
Proof.
  intros v. assert (HK : wf exK) by prove_wf.
  destruct (C48_mca_square Z Z.mul Z.add v exK HK eq_refl) as (C & HC & Hw & Hr & Hc & HP).
  - prove_sorted.
  - cbn. lia.
  - intros i k Hi Hk. assert (k < 3) by (eapply (row_cols_range exK i k HK); eassumption). destruct k as [|[|[|k]]]; [discriminate..|lia].
  - assert (C = exK) as ->; [|exact HC]. rewrite (wf_assemble C Hw), Hr, Hc. rewrite (assemble_ext _ (spec_row Z.mul Z.add exK exK exK)); [reflexivity|exact HP].
Qed.

(** Two threads: no race; five threads: a race. *)
Example C48_race_example :
  let s := {[0 := OMat exA; 1 := OMat exB; 2 := OMat exM; 3 := OMat exM]} in
  driverH_race_free (maskedHeapAlg Z.mul Z.add 0) 255 1 0 1 2 3 2 s /\ ~ driverH_race_free (maskedHeapAlg Z.mul Z.add 0) 255 1 0 1 2 3 5 s.
Proof.
  intros s. split.
  - eapply (C48_races Z Z.mul Z.add 0 MV1 exA exB exM 255 1 2 0 1 2 3 exM s ex_compat exB_sorted exM_sorted); try reflexivity; try discriminate; try (cbn; lia).
    intros t Ht. assert (t = 0) as -> by lia. exists 0, 1. split; [vm_compute; reflexivity|lia].
  - eapply (C48_race_refuted Z Z.mul Z.add 0 exA exB exM 255 1 5 0 1 2 3 exM s ex_compat exB_sorted exM_sorted); try reflexivity; try discriminate; cbn; lia.
Qed.
