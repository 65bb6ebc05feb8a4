(** The inner-product drivers (masked-spgemm-inner.h, inner/MaskedInnerSpGEMM.h): C09-C11, C23-C25, C27, C28. *)
From Coq Require Import NArith ZArith.
From Verif Require Import BaseProofs McaProofs MsaModel McaModel HashModel HeapModel HeapProofs WorkModel WorkProofs Conc ScanModel ScanProofs ScanStatements DriverModel AlgModel AlgProofs
  DriverStatements SeqStatements InnerModel InnerDriverModel InnerDriverStatements Examples PropInner PropDriver.
From Verif Require Import Base Spec.

(** ** C09, C10 for the inner product: one matrix for both drivers, all thread counts and schedules. *)
Theorem C09_C10_inner :
  forall V (mul add : V -> V -> V) (A B M : csr V) (Bc : csc V),
  compatible A B M -> wf_csc Bc -> same_matrix B Bc -> sorted_rows A -> distinct_rows B -> sorted_cols Bc -> 1 <= rows A ->
  exists C, product_matrix A B C (fun i l => l = spec_row mul add A B M i) /\
    yieldsI1p mul add A Bc M C /\ yieldsI2p mul add A Bc M C.
Proof.
  intros V mul add A B M Bc HC HW HS HA HB HBc Hr. assert (HI : inner_inputs A B M Bc) by (constructor; assumption).
  exists (Assemble.assemble (spec_row mul add A B M) (rows A) (cols B)).
  split; [|split; [apply inner1p_yields; assumption|apply inner2p_yields; assumption]].
  split; [apply Assemble.assemble_wf; intros i c v Hi Hin; eapply plain_cols; eauto|]. split; [reflexivity|]. split; [reflexivity|].
  intros i Hi. apply Assemble.assemble_row, Hi.
Qed.
Print Assumptions C09_C10_inner.

Example C09_C10_inner_example : yieldsI1p Z.mul Z.add exA exBc exM exC /\ yieldsI2p Z.mul Z.add exA exBc exM exC.
Proof.
  destruct (C09_C10_inner Z Z.mul Z.add exA exB exM exBc ex_compat exBc_wf exBc_same exA_sorted exB_distinct exBc_sorted ltac:(cbn; lia)) as (C & HP & Y).
  rewrite (product_unique exA exB exC C _ exC_product HP). exact Y.
Qed.
(** 5 threads on 3 rows, the output object being the mask. *)
Example C09_C10_inner_example_call :
  inner1p_always Z.mul Z.add 0 1 2 2 5 {[0 := OMat exA; 1 := OCsc exBc; 2 := OMat exM]}
    (<[2 := OMat exC]> {[0 := OMat exA; 1 := OCsc exBc; 2 := OMat exM]}).
Proof. apply C09_C10_inner_example; [lia|reflexivity|reflexivity|reflexivity]. Qed.

Theorem C09_C10_inner_outcome_unique :
  forall V (mul add : V -> V -> V) iA iB iM iC nt s s1 s2,
  (inner1p_always mul add iA iB iM iC nt s s1 -> inner1p_always mul add iA iB iM iC nt s s2 -> s1 = s2) /\
  (inner2p_always mul add iA iB iM iC nt s s1 -> inner2p_always mul add iA iB iM iC nt s s2 -> s1 = s2).
Proof. intros. split; [apply inner1p_unique|apply inner2p_unique]. Qed.
Print Assumptions C09_C10_inner_outcome_unique.

(** ** C11, all algorithms: MSA, MCA, hash, inner product, and heap when addop is associative and
    commutative; both drivers; the same matrix. *)
Theorem C11_all_algorithms_agree :
  forall V (mul add : V -> V -> V) (A B M : csr V) (Bc : csc V), compatible A B M -> sorted_rows A -> sorted_rows B -> sorted_rows M ->
  wf_csc Bc -> same_matrix B Bc -> sorted_cols Bc -> 1 <= rows A ->
  exists C, product_matrix A B C (fun i l => l = spec_row mul add A B M i) /\
  (forall (two : bool) (sz : N), (0 < sz)%N -> ((N.of_nat (cols B) + 1) * (sz + 1) + 8 < 2 ^ 64)%N ->
     yields1p (msaAlg mul add two sz) A B M C /\ yields2p (msaAlg mul add two sz) A B M C) /\
  (forall (sz : N) (mx : nat), (0 < sz)%N -> (forall i, i < rows A -> length (row_cols M i) <= mx) -> ((N.of_nat mx + 1) * sz + 8 < 2 ^ 64)%N ->
     yields1p (mcaAlg mul add sz) A B M C /\ yields2p (mcaAlg mul add sz) A B M C) /\
  (forall (w sK sN : N) (mx : nat), (0 < sK)%N -> (0 < sN)%N -> (forall i, i < rows A -> length (row_cols M i) <= mx) -> fits w mx ->
     ((8 * (N.of_nat mx + 2) + 1) * N.max sK sN < 2 ^ 64)%N -> (N.lcm sK sN + 8 < 2 ^ 64)%N ->
     yields1p (hashAlg mul add w sK sN) A B M C /\ yields2p (hashAlg mul add w sK sN) A B M C) /\
  ((forall a b, add a b = add b a) -> (forall a b c, add a (add b c) = add (add a b) c) ->
   forall (itmax : nat) (insp sz : N) (mx : nat), (0 < sz)%N -> cols B <= itmax ->
     (insp < 2 \/ insp = 2 ^ 64 - 1 \/ N.of_nat (nnz M) + insp < 2 ^ 64)%N ->
     (forall i, i < rows A -> length (row_cols A i) <= mx) -> ((N.of_nat mx + 1) * sz + 8 < 2 ^ 64)%N ->
     yields1p (heapAlg mul add itmax insp sz) A B M C /\ yields2p (heapAlg mul add itmax insp sz) A B M C) /\
  yieldsI1p mul add A Bc M C /\ yieldsI2p mul add A Bc M C.
Proof.
  intros V mul add A B M Bc HC SA SB SM HW HS HBc Hr.
  destruct (agree mul add A B M HC SB SM Hr) as (C & HP & H1 & H2 & H3 & H4).
  assert (Hd : distinct_rows B) by (intros i Hi; apply SSorted_NoDup, SB, Hi).
  destruct (C09_C10_inner V mul add A B M Bc HC HW HS SA Hd HBc Hr) as (C' & HP' & H5 & H6).
  rewrite <- (product_unique A B C C' _ HP HP') in H5, H6. exists C. auto 10.
Qed.
Print Assumptions C11_all_algorithms_agree.
Example C11_example : sorted_rows exA /\ sorted_rows exB /\ sorted_rows exM /\ wf_csc exBc /\ same_matrix exB exBc /\ sorted_cols exBc /\
  yieldsI2p Z.mul Z.add exA exBc exM exC /\ yields1p (mcaAlg Z.mul Z.add 16) exA exB exM exC.
Proof.
  split; [exact exA_sorted|]. split; [exact exB_sorted|]. split; [exact exM_sorted|]. split; [exact exBc_wf|]. split; [exact exBc_same|].
  split; [exact exBc_sorted|]. split; [apply C09_C10_inner_example|apply C09_C10_example].
Qed.

(** ** C23 for the inner product.  One phase: the output may be an input. *)
Theorem C23_inner_one_phase :
  forall V (mul add : V -> V -> V) (A B M : csr V) (Bc : csc V),
  compatible A B M -> wf_csc Bc -> same_matrix B Bc -> sorted_rows A -> distinct_rows B -> sorted_cols Bc -> 1 <= rows A ->
  exists C, product_matrix A B C (fun i l => l = spec_row mul add A B M i) /\
  forall nt iA iB iM iC (s : gmap nat (obj V)), 1 <= nt ->
    s !! iA = Some (OMat A) -> s !! iB = Some (OCsc Bc) -> s !! iM = Some (OMat M) -> iC = iA \/ iC = iM ->
    inner1p_always mul add iA iB iM iC nt s (<[iC := OMat C]> s).
Proof.
  intros V mul add A B M Bc HC HW HS HA HB HBc Hr. destruct (C09_C10_inner V mul add A B M Bc HC HW HS HA HB HBc Hr) as (C & HP & Y & _).
  exists C. split; [exact HP|]. intros. apply Y; assumption.
Qed.
Print Assumptions C23_inner_one_phase.
(** Two phases: false of the code.  initC frees the arrays of C, then the numeric phase reads A and M
    again: with C an input, every call on which some mask entry needs a dot product of a non-empty
    row and a non-empty column reads freed memory. *)
Theorem C23_inner_two_phase_refuted :
  forall V (mul add : V -> V -> V) (A B M : csr V) (Bc : csc V),
  compatible A B M -> wf_csc Bc -> same_matrix B Bc -> sorted_rows A -> distinct_rows B -> sorted_cols Bc ->
  forall i c, i < rows A -> c ∈ row_cols M i -> row_entries A i <> [] -> col_entries Bc c <> [] ->
  forall nt iA iB iM iC (s : gmap nat (obj V)), 1 <= nt ->
    s !! iA = Some (OMat A) -> s !! iB = Some (OCsc Bc) -> s !! iM = Some (OMat M) -> iC = iA \/ iC = iM ->
    inner2p_faults mul add iA iB iM iC nt s UseAfterFree.
Proof.
  intros V mul add A B M Bc HC HW HS HA HB HBc i c Hi Hc Ha Hb nt iA iB iM iC s Hnt H1 H2 H3 Hal.
  apply (inner2p_alias mul add A B M Bc); try assumption; [constructor; assumption|lia|].
  exists i. split; [exact Hi|]. eapply work_nonzero; eassumption.
Qed.
Print Assumptions C23_inner_two_phase_refuted.
Example C23_inner_example :
  inner2p_faults Z.mul Z.add 0 1 2 2 5 {[0 := OMat exA; 1 := OCsc exBc; 2 := OMat exM]} UseAfterFree.
Proof.
  apply (C23_inner_two_phase_refuted Z Z.mul Z.add exA exB exM exBc ex_compat exBc_wf exBc_same exA_sorted exB_distinct exBc_sorted 0 0);
    [cbn; lia|vm_compute; left|intros E; vm_compute in E; discriminate E|intros E; vm_compute in E; discriminate E|lia|reflexivity|reflexivity|reflexivity|auto].
Qed.

(** ** C24 for the inner product. *)
Theorem C24_inner_inputs_unchanged :
  forall V (mul add : V -> V -> V) iA iB iM iC nt s s' j, j <> iC ->
  (inner1p_always mul add iA iB iM iC nt s s' -> s' !! j = s !! j) /\ (inner2p_always mul add iA iB iM iC nt s s' -> s' !! j = s !! j).
Proof.
  intros V mul add iA iB iM iC nt s s' j Hj.
  split; intros (A & B & M & HA & HB & HM & _ & f & c & t & Hp & e & m & ss & HR & C & HC & ->);
    rewrite lookup_insert_ne by congruence; unfold regionI1p, regionI2p in HR;
    inversion HR as [|? ? ? ? ? ? ? ? ? ? _ HR2|]; subst; inversion HR2 as [| |? ? ? ? ? ? ? ? ? ? ? Hi HR3]; subst;
    inversion HR3 as [|? ? ? ? ? ? ? ? ? ? _ HR4|]; subst; inversion HR4; subst; eapply initC_others; eauto.
Qed.
Print Assumptions C24_inner_inputs_unchanged.
(** [C09_C10_inner_example_call] is a run to which it applies. *)

(** ** C25 for the inner product. *)
Theorem C25_pattern_inner :
  forall V W (mul add : V -> V -> V) (mul' add' : W -> W -> W) (A B M : csr V) (A' B' M' : csr W) (Bc : csc V) (Bc' : csc W),
  compatible A B M -> compatible A' B' M' -> same_pattern A A' -> same_pattern B B' -> same_pattern M M' ->
  wf_csc Bc -> same_matrix B Bc -> sorted_rows A -> distinct_rows B -> sorted_cols Bc ->
  wf_csc Bc' -> same_matrix B' Bc' -> sorted_rows A' -> distinct_rows B' -> sorted_cols Bc' -> 1 <= rows A ->
  exists C C', yieldsI1p mul add A Bc M C /\ yieldsI2p mul' add' A' Bc' M' C' /\ same_pattern C C' /\ nnz C = nnz C'.
Proof.
  intros V W mul add mul' add' A B M A' B' M' Bc Bc' HC HC' HA HB HM H1 H2 H3 H4 H5 H1' H2' H3' H4' H5' Hr.
  destruct (pat_shape A B A' B' HA HB) as [Er Ec].
  destruct (C09_C10_inner V mul add A B M Bc) as (C & HP & Y1 & _); try assumption.
  destruct (C09_C10_inner W mul' add' A' B' M' Bc') as (C' & HP' & _ & Y2); try assumption; [congruence|].
  exists C, C'. split; [exact Y1|]. split; [exact Y2|]. exact (pat_plain mul add mul' add' A B M A' B' M' HC HC' HA HB HM C C' HP HP').
Qed.
Print Assumptions C25_pattern_inner.
Example C25_inner_example : compatible exA0 exB exM /\ same_pattern exA exA0 /\ sorted_rows exA0 /\
  innerNumericRow Z.mul Z.add exA0 exBc exM 0 (mkOut [] 2) = Ok (mkOut [0 ~> 0; 1 ~> 6] 2).
Proof.
  split; [apply C25_example|]. split; [apply C25_example|]. split; [|vm_compute; reflexivity].
  intros i Hi. rewrite <- (pattern_cols exA exA0 i); [apply exA_sorted; exact Hi|apply ex_compat|apply C25_example|apply C25_example].
Qed.

(** ** C27 for the inner product: no rows. *)
Theorem C27_inner_zero_rows_refuted :
  forall V (mul add : V -> V -> V) (M : csr V) iA iB iM iC nt s s',
  s !! iM = Some (OMat M) -> rows M = 0 ->
  ~ inner1p_always mul add iA iB iM iC nt s s' /\ ~ inner2p_always mul add iA iB iM iC nt s s' /\
  excIsSeq 0 nt = true /\ excSeq 0 Nat.add [] 0 [] = Err OutOfBounds.
Proof.
  intros V mul add M iA iB iM iC nt s s' HM Hr.
  split; [|split; [|split; reflexivity]]; intros (A & B & M' & _ & _ & HM' & _ & w & c & t & [_ Hs] & _);
    unfold deref in HM'; rewrite HM in HM'; injection HM' as <-; rewrite Hr in Hs;
    unfold excScan_always in Hs; destruct w; discriminate.
Qed.
Print Assumptions C27_inner_zero_rows_refuted.
Theorem C27_inner_no_entries :
  forall V (mul add : V -> V -> V) (A B M : csr V) (Bc : csc V),
  compatible A B M -> wf_csc Bc -> same_matrix B Bc -> sorted_rows A -> distinct_rows B -> sorted_cols Bc -> 1 <= rows A ->
  nnz A = 0 \/ nnz B = 0 \/ nnz M = 0 ->
  let C := mkCsr (rows A) (cols B) 0 (replicate (rows A + 1) 0) [] [] in
  yieldsI1p mul add A Bc M C /\ yieldsI2p mul add A Bc M C.
Proof.
  intros V mul add A B M Bc HC HW HS HA HB HBc Hr H0. destruct (C09_C10_inner V mul add A B M Bc HC HW HS HA HB HBc Hr) as (C & HP & Y).
  rewrite (empty_product A B C _ HP) in Y; [exact Y|]. intros i l _ ->. apply no_entries_spec; assumption.
Qed.
Print Assumptions C27_inner_no_entries.
Example C27_inner_example : let E := mkCsr (V := Z) 3 4 0 [0;0;0;0] [] [] in yieldsI1p Z.mul Z.add exA exBc E E.
Proof.
  assert (HC : compatible exA exB (mkCsr (V := Z) 3 4 0 [0;0;0;0] [] [])) by (constructor; first [prove_wf|reflexivity]).
  apply (C27_inner_no_entries Z Z.mul Z.add exA exB _ exBc HC exBc_wf exBc_same exA_sorted exB_distinct exBc_sorted); [cbn; lia|right; right; reflexivity].
Qed.

(** ** C28 for the inner product: free of data races exactly when every thread but the last has a row. *)
Theorem C28_inner_races :
  forall V (mul add : V -> V -> V) (A B M : csr V) (Bc : csc V),
  compatible A B M -> wf_csc Bc -> same_matrix B Bc -> sorted_rows A -> distinct_rows B -> sorted_cols Bc -> 1 <= rows A ->
  forall nt iA iB iM iC (s : gmap nat (obj V)), 1 <= nt ->
    s !! iA = Some (OMat A) -> s !! iB = Some (OCsc Bc) -> s !! iM = Some (OMat M) ->
    (inner1p_race_free mul add iA iB iM iC nt s <-> all_busyI A Bc M nt) /\
    (iC <> iA -> iC <> iB -> iC <> iM -> inner2p_race_free mul add iA iB iM iC nt s <-> all_busyI A Bc M nt) /\
    (rows A + 1 < nt -> ~ all_busyI A Bc M nt).
Proof.
  intros V mul add A B M Bc HC HW HS HA HB HBc Hr nt iA iB iM iC s Hnt H1 H2 H3. assert (HI : inner_inputs A B M Bc) by (constructor; assumption).
  split; [eapply inner1p_race_iff; eassumption|]. split; [intros; eapply inner2p_race_iff; eassumption|].
  eapply (too_many_threadsI mul add); eassumption.
Qed.
Print Assumptions C28_inner_races.
(** Work 8, 0, 4 in the example: two threads have no race, five have one. *)
Example C28_inner_example :
  inner1p_race_free Z.mul Z.add 0 1 2 3 2 {[0 := OMat exA; 1 := OCsc exBc; 2 := OMat exM]} /\
  ~ inner2p_race_free Z.mul Z.add 0 1 2 3 5 {[0 := OMat exA; 1 := OCsc exBc; 2 := OMat exM]}.
Proof.
  pose proof (C28_inner_races Z Z.mul Z.add exA exB exM exBc ex_compat exBc_wf exBc_same exA_sorted exB_distinct exBc_sorted ltac:(cbn; lia)) as H. split.
  - apply (H 2 0 1 2 3 {[0 := OMat exA; 1 := OCsc exBc; 2 := OMat exM]}); try reflexivity; [lia|].
    exists [8; 0; 4], [0; 8; 8], 12. split.
    + split.
      * exact (calculateWork_ok exA exM exBc (replicate 3 None) (co_A _ _ _ ex_compat) exBc_wf (co_M _ _ _ ex_compat) eq_refl eq_refl ltac:(rewrite replicate_length; cbn; lia)).
      * apply (exclusive_scan_ok 0 Nat.add [8; 0; 4] 3 2 (replicate 3 None)); try (intros; lia); cbn; lia.
    + intros t Ht. destruct t as [|t]; [|lia]. exists 0, 1. split; [vm_compute; reflexivity|lia].
  - destruct (H 5 0 1 2 3 {[0 := OMat exA; 1 := OCsc exBc; 2 := OMat exM]}) as (_ & H2 & H3); try reflexivity; [lia|].
    rewrite H2 by discriminate. apply H3. cbn. lia.
Qed.
