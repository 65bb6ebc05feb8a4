(** C09, C10, C11 (partly), C13, C14, C23-C28: the drivers of masked-spgemm.h. *)
From Coq Require Import NArith ZArith.
From Verif Require Import MsaModel McaModel HashModel HeapModel HeapProofs WorkModel WorkProofs Conc ScanModel ScanProofs ScanStatements DriverModel DriverProofs AlgModel AlgProofs DriverStatements
  RaceProofs SeqStatements Examples.
From Verif Require Import Base Spec.

(** ** C09, C10: both drivers, every row algorithm.
    In each theorem there is one matrix C for both drivers, every thread count, every assignment of
    objects (C may be one of the inputs), every interleaving, every malloc result. *)
Theorem C09_C10_any_row_algorithm :
  forall V (alg : rowalg V) (A B M : csr V) (rspec : nat -> list (nat * V)),
  compatible A B M -> 1 <= rows A -> ra_ok alg A B M rspec ->
  exists C, product_matrix A B C (fun i l => l = rspec i) /\ yields1p alg A B M C /\ yields2p alg A B M C.
Proof. intros V alg A B M rspec HC Hr Hok. eapply contract_both; eauto. Qed.
Print Assumptions C09_C10_any_row_algorithm.

(** MSA1A ([two] = false) and MSA2A ([two] = true); [sz] is the size of a value. *)
Theorem C09_C10_msa :
  forall V (mul add : V -> V -> V) (A B M : csr V) (two : bool) (sz : N),
  compatible A B M -> distinct_rows M -> 1 <= rows A -> (0 < sz)%N ->
  ((N.of_nat (cols B) + 1) * (sz + 1) + 8 < 2 ^ 64)%N ->
  exists C, product_matrix A B C (fun i l => l = spec_row mul add A B M i) /\
    yields1p (msaAlg mul add two sz) A B M C /\ yields2p (msaAlg mul add two sz) A B M C.
Proof. exact @msa_drivers. Qed.
Print Assumptions C09_C10_msa.

Theorem C09_C10_msa_complemented :
  forall V (mul add : V -> V -> V) (A B M : csr V) (two sorted : bool) (sz : N),
  compatible A B M -> distinct_rows M -> 1 <= rows A -> (0 < sz)%N ->
  ((N.of_nat (cols B) + 1) * (sz + 1) + 8 < 2 ^ 64)%N ->
  exists C, product_matrix A B C (fun i l => is_compl_row mul add A B M i l /\
      if sorted then StronglySorted lt (fst <$> l) else fst <$> l = compl_cols A B M i) /\
    yields1p (msaAlgC mul add two sorted sz) A B M C /\ yields2p (msaAlgC mul add two sorted sz) A B M C.
Proof. exact @msaC_drivers. Qed.
Print Assumptions C09_C10_msa_complemented.

(** [mx] bounds the mask rows. *)
Theorem C09_C10_mca :
  forall V (mul add : V -> V -> V) (A B M : csr V) (sz : N) (mx : nat),
  compatible A B M -> sorted_rows B -> sorted_rows M -> 1 <= rows A -> (0 < sz)%N ->
  (forall i, i < rows A -> length (row_cols M i) <= mx) -> ((N.of_nat mx + 1) * sz + 8 < 2 ^ 64)%N ->
  exists C, product_matrix A B C (fun i l => l = spec_row mul add A B M i) /\
    yields1p (mcaAlg mul add sz) A B M C /\ yields2p (mcaAlg mul add sz) A B M C.
Proof. exact @mca_drivers. Qed.
Print Assumptions C09_C10_mca.

(** [w] bits of the index type; [sK], [sN] sizes of a table entry in the two phases. *)
Theorem C09_C10_hash :
  forall V (mul add : V -> V -> V) (A B M : csr V) (w sK sN : N) (mx : nat),
  compatible A B M -> distinct_rows M -> 1 <= rows A -> (0 < sK)%N -> (0 < sN)%N ->
  (forall i, i < rows A -> length (row_cols M i) <= mx) -> fits w mx ->
  ((8 * (N.of_nat mx + 2) + 1) * N.max sK sN < 2 ^ 64)%N -> (N.lcm sK sN + 8 < 2 ^ 64)%N ->
  exists C, product_matrix A B C (fun i l => l = spec_row mul add A B M i) /\
    yields1p (hashAlg mul add w sK sN) A B M C /\ yields2p (hashAlg mul add w sK sN) A B M C.
Proof. exact @hash_drivers. Qed.
Print Assumptions C09_C10_hash.

(** [fx] bounds the products of a row. *)
Theorem C09_C10_hash_complemented :
  forall V (mul add : V -> V -> V) (A B M : csr V) (w sK sN : N) (sorted : bool) (mx fx : nat),
  compatible A B M -> distinct_rows M -> 1 <= rows A -> (0 < sK)%N -> (0 < sN)%N ->
  (forall i, i < rows A -> length (row_cols M i) <= mx) -> (forall i, i < rows A -> length (touched_cols A B i) <= fx) -> fits w (mx + fx) ->
  ((8 * (N.of_nat (mx + fx) + 2) + 1) * N.max sK sN < 2 ^ 64)%N -> (N.lcm sK sN + 8 < 2 ^ 64)%N ->
  exists C, product_matrix A B C (fun i l => is_compl_row mul add A B M i l /\
      if sorted then StronglySorted lt (fst <$> l) else fst <$> l = compl_cols A B M i) /\
    yields1p (hashAlgC mul add w sK sN sorted) A B M C /\ yields2p (hashAlgC mul add w sK sN sorted) A B M C.
Proof. exact @hashC_drivers. Qed.
Print Assumptions C09_C10_hash_complemented.

(** [itmax] is the largest value of the index type; here [mx] bounds the rows of A. *)
Theorem C09_C10_heap :
  forall V (mul add : V -> V -> V) (A B M : csr V) (itmax : nat) (insp sz : N) (mx : nat),
  compatible A B M -> sorted_rows B -> sorted_rows M -> 1 <= rows A -> (0 < sz)%N ->
  cols B <= itmax -> (insp < 2 \/ insp = 2 ^ 64 - 1 \/ N.of_nat (nnz M) + insp < 2 ^ 64)%N ->
  (forall i, i < rows A -> length (row_cols A i) <= mx) -> ((N.of_nat mx + 1) * sz + 8 < 2 ^ 64)%N ->
  exists C, product_matrix A B C (fun i l => fst <$> l = fst <$> spec_row mul add A B M i /\
      forall j v, (j, v) ∈ l -> sum_in_some_order mul add A B i j v) /\
    yields1p (heapAlg mul add itmax insp sz) A B M C /\ yields2p (heapAlg mul add itmax insp sz) A B M C.
Proof. exact @heap_drivers. Qed.
Print Assumptions C09_C10_heap.

Theorem C09_C10_heap_complemented :
  forall V (mul add : V -> V -> V) (A B M : csr V) (itmax : nat) (sz : N) (mx : nat),
  compatible A B M -> sorted_rows B -> sorted_rows M -> 1 <= rows A -> (0 < sz)%N ->
  cols B <= itmax -> (forall i, i < rows A -> touched_cols A B i <> [] -> row_cols M i <> []) ->
  (forall i, i < rows A -> length (row_cols A i) <= mx) -> ((N.of_nat mx + 1) * sz + 8 < 2 ^ 64)%N ->
  exists C, product_matrix A B C (fun i l => StronglySorted lt (fst <$> l) /\ (forall j, j ∈ fst <$> l <-> j ∈ compl_cols A B M i) /\
      forall j v, (j, v) ∈ l -> sum_in_some_order mul add A B i j v) /\
    yields1p (heapAlgC mul add itmax sz) A B M C /\ yields2p (heapAlgC mul add itmax sz) A B M C.
Proof. exact @heapC_drivers. Qed.
Print Assumptions C09_C10_heap_complemented.

(** The outcome of a call is unique: if the driver always ends in s1 and always ends in s2, s1 = s2. *)
Theorem C09_C10_outcome_unique :
  forall V (alg : rowalg V) iA iB iM iC iR nt sc s s1 s2,
  (driver1p_always alg iA iB iM iC nt sc s s1 -> driver1p_always alg iA iB iM iC nt sc s s2 -> s1 = s2) /\
  (driver2p_always alg iA iB iM iC iR nt sc s s1 -> driver2p_always alg iA iB iM iC iR nt sc s s2 -> s1 = s2).
Proof. intros. split; [apply driver1p_unique|apply driver2p_unique]. Qed.
Print Assumptions C09_C10_outcome_unique.

(** The hypotheses hold, and the result is not trivial, for the 3x3 by 3x4 example. *)
Definition exC : csr Z := mkCsr 3 4 3 [0;2;2;3] [0;1;3] [-4;18;-1]%Z.
Lemma ex_rows (mx : nat) : 3 <= mx -> forall i, i < rows exA -> length (row_cols exM i) <= mx.
Proof. intros Hm i Hi. cbn in Hi. do 3 (destruct i as [|i]; [cbn; lia|]). lia. Qed.
Lemma ex_rowsA (mx : nat) : 2 <= mx -> forall i, i < rows exA -> length (row_cols exA i) <= mx.
Proof. intros Hm i Hi. cbn in Hi. do 3 (destruct i as [|i]; [cbn; lia|]). lia. Qed.
Lemma exC_product : product_matrix exA exB exC (fun i l => l = spec_row Z.mul Z.add exA exB exM i).
Proof.
  split; [prove_wf|]. split; [reflexivity|]. split; [reflexivity|].
  intros i Hi. cbn in Hi. do 3 (destruct i as [|i]; [vm_compute; reflexivity|]). lia.
Qed.
Example C09_C10_example :
  (yields1p (msaAlg Z.mul Z.add false 8) exA exB exM exC /\ yields2p (msaAlg Z.mul Z.add true 8) exA exB exM exC) /\
  (yields1p (mcaAlg Z.mul Z.add 16) exA exB exM exC /\ yields2p (mcaAlg Z.mul Z.add 16) exA exB exM exC) /\
  (yields1p (hashAlg Z.mul Z.add 32 8 16) exA exB exM exC /\ yields2p (hashAlg Z.mul Z.add 32 8 16) exA exB exM exC) /\
  (yields1p (heapAlg Z.mul Z.add 100 1 24) exA exB exM exC /\ yields2p (heapAlg Z.mul Z.add 100 1 24) exA exB exM exC).
Proof.
  destruct (agree Z.mul Z.add exA exB exM ex_compat exB_sorted exM_sorted ltac:(cbn; lia)) as (C & HP & H1 & H2 & H3 & H4).
  rewrite (product_unique exA exB exC C _ exC_product HP). split; [|split; [|split]].
  - split; [apply (H1 false 8%N)|apply (H1 true 8%N)]; reflexivity.
  - apply (H2 16%N 3); [reflexivity|apply ex_rows; lia|reflexivity].
  - apply (H3 32%N 8%N 16%N 3); [reflexivity|reflexivity|apply ex_rows; lia|split; [lia|vm_compute; discriminate]|reflexivity|reflexivity].
  - apply (H4 Z.add_comm Z.add_assoc 100 1%N 24%N 2); [reflexivity|cbn; lia|left; reflexivity|apply ex_rowsA; lia|reflexivity].
Qed.
(** For instance 5 threads on 3 rows, the output object being the mask itself. *)
Example C09_C10_example_call : forall sc,
  driver1p_always (msaAlg Z.mul Z.add false 8) 0 1 2 2 5 sc {[0 := OMat exA; 1 := OMat exB; 2 := OMat exM]}
    (<[2 := OMat exC]> {[0 := OMat exA; 1 := OMat exB; 2 := OMat exM]}).
Proof. intros sc. apply C09_C10_example; [lia|reflexivity|reflexivity|reflexivity]. Qed.
Example C09_C10_example_complemented :
  exists C Ch Cp, yields1p (msaAlgC Z.mul Z.add true true 8) exA exB exM C /\ yields2p (hashAlgC Z.mul Z.add 32 8 16 false) exA exB exM Ch /\
    yields1p (heapAlgC Z.mul Z.add 100 24) exA exB exM Cp /\
    row_cols C 2 = [0; 1] /\ row_cols Ch 2 = [1; 0] /\ row_cols Cp 0 = [3].
Proof.
  destruct (C09_C10_msa_complemented _ Z.mul Z.add exA exB exM true true 8) as (C & HP & H1 & _);
    [exact ex_compat|exact exM_distinct|cbn; lia|reflexivity|reflexivity|].
  destruct (C09_C10_hash_complemented _ Z.mul Z.add exA exB exM 32 8 16 false 3 5) as (Ch & HPh & _ & H2);
    [exact ex_compat|exact exM_distinct|cbn; lia|reflexivity|reflexivity|apply ex_rows; lia| |split; [lia|vm_compute; discriminate]|reflexivity|reflexivity|].
  { intros i Hi. cbn in Hi. do 3 (destruct i as [|i]; [vm_compute; lia|]). lia. }
  destruct (C09_C10_heap_complemented _ Z.mul Z.add exA exB exM 100 24 2) as (Cp & HPp & H3 & _);
    [exact ex_compat|exact exB_sorted|exact exM_sorted|cbn; lia|reflexivity|cbn; lia| |apply ex_rowsA; lia|reflexivity|].
  { intros i Hi. cbn in Hi. do 3 (destruct i as [|i]; [vm_compute; discriminate|]). lia. }
  exists C, Ch, Cp. do 3 (split; [assumption|]). unfold row_cols. split; [|split].
  - destruct HP as (_ & _ & _ & HP). destruct (HP 2 ltac:(cbn; lia)) as [K1 K2]. apply sorted_unique; [exact K2|vm_compute; repeat constructor; lia|].
    intros x. rewrite (compl_keys _ _ _ _ _ _ _ K1). change (compl_cols exA exB exM 2) with [1; 0]. set_solver.
  - destruct HPh as (_ & _ & _ & HP'). destruct (HP' 2 ltac:(cbn; lia)) as [_ K2]. rewrite K2. reflexivity.
  - destruct HPp as (_ & _ & _ & HP'). destruct (HP' 0 ltac:(cbn; lia)) as (K1 & K2 & _). apply sorted_unique; [exact K1|vm_compute; repeat constructor|].
    intros x. rewrite K2. change (compl_cols exA exB exM 0) with [3]. reflexivity.
Qed.

(** ** C11: MSA1A, MSA2A, MCA, hash, and heap when addop is associative and commutative, 1-phase and
    2-phase, give the very same matrix.  The inner-product algorithm is in PropInnerDriver.v. *)
Theorem C11_algorithms_agree :
  forall V (mul add : V -> V -> V) (A B M : csr V), compatible A B M -> sorted_rows B -> sorted_rows M -> 1 <= rows A ->
  exists C, product_matrix A B C (fun i l => l = spec_row mul add A B M i) /\
  (forall (two : bool) (sz : N), (0 < sz)%N -> ((N.of_nat (cols B) + 1) * (sz + 1) + 8 < 2 ^ 64)%N ->
     yields1p (msaAlg mul add two sz) A B M C /\ yields2p (msaAlg mul add two sz) A B M C) /\
  (forall (sz : N) (mx : nat), (0 < sz)%N -> (forall i, i < rows A -> length (row_cols M i) <= mx) -> ((N.of_nat mx + 1) * sz + 8 < 2 ^ 64)%N ->
     yields1p (mcaAlg mul add sz) A B M C /\ yields2p (mcaAlg mul add sz) A B M C) /\
  (forall (w sK sN : N) (mx : nat), (0 < sK)%N -> (0 < sN)%N -> (forall i, i < rows A -> length (row_cols M i) <= mx) -> fits w mx ->
     ((8 * (N.of_nat mx + 2) + 1) * N.max sK sN < 2 ^ 64)%N -> (N.lcm sK sN + 8 < 2 ^ 64)%N ->
     yields1p (hashAlg mul add w sK sN) A B M C /\ yields2p (hashAlg mul add w sK sN) A B M C) /\
  ((forall a b, add a b = add b a) -> (forall a b c, add a (add b c) = add (add a b) c) ->
   forall (itmax : nat) (insp sz : N) (mx : nat), (0 < sz)%N -> cols B <= itmax ->
     (insp < 2 \/ insp = 2 ^ 64 - 1 \/ N.of_nat (nnz M) + insp < 2 ^ 64)%N ->
     (forall i, i < rows A -> length (row_cols A i) <= mx) -> ((N.of_nat mx + 1) * sz + 8 < 2 ^ 64)%N ->
     yields1p (heapAlg mul add itmax insp sz) A B M C /\ yields2p (heapAlg mul add itmax insp sz) A B M C).
Proof. exact @agree. Qed.
Print Assumptions C11_algorithms_agree.
(** [C09_C10_example] is the concrete case. *)

(** ** C13: the per-thread output buffers are large enough. *)
Theorem C13_buffer_plain :
  forall V (mul add : V -> V -> V) (A B M : csr V) flops total rb re cA cM cF,
  compatible A B M -> distinct_rows M -> rb <= re <= rows A ->
  calculateFlopsM_always A B M (replicate (rows A) None) (Some <$> flops) total ->
  exists sizeC mA mM mF, scanInputs false true cA cM cF rb re flops A M = Ok (sizeC, mA, mM, mF) /\
    estimateResultSize rb re flops M = Ok sizeC /\
    length (mjoin (spec_row mul add A B M <$> seq rb (re - rb))) <= sizeC.
Proof. exact @buffer_plain. Qed.
Print Assumptions C13_buffer_plain.

Theorem C13_buffer_complemented :
  forall V (A B M : csr V) flops total rb re cA cM cF,
  compatible A B M -> rb <= re <= rows A ->
  calculateFlops_always A B (replicate (rows A) None) (Some <$> flops) total ->
  exists sizeC mA mM mF, scanInputs true true cA cM cF rb re flops A M = Ok (sizeC, mA, mM, mF) /\
    length (mjoin (compl_cols A B M <$> seq rb (re - rb))) <= sizeC.
Proof. exact @buffer_compl. Qed.
Print Assumptions C13_buffer_complemented.

Example C13_example :
  scanInputs false true true true true 0 3 [5; 0; 4] exA exM = Ok (4, 2, 3, 5) /\
  scanInputs true true true true true 0 3 [5; 0; 4] exA exM = Ok (9, 2, 3, 5) /\
  length (mjoin (spec_row Z.mul Z.add exA exB exM <$> seq 0 3)) = 3 /\
  length (mjoin (compl_cols exA exB exM <$> seq 0 3)) = 3.
Proof. repeat split; vm_compute; reflexivity. Qed.
Example C13_example_flops : exists total, calculateFlopsM_always exA exB exM (replicate 3 None) (Some <$> [5; 0; 4]) total.
Proof.
  eexists. exact (calculateFlopsM_ok exA exB exM (replicate 3 None) ex_compat ltac:(rewrite replicate_length; cbn; lia)).
Qed.

(** ** C14: one accumulator, any sequence of rows (repetitions allowed): the results are those of the
    single rows, and the accumulator is clean again. *)
Theorem C14_msa :
  forall V (mul add : V -> V -> V) (two : bool) (A B M : csr V) rs cap,
  compatible A B M -> distinct_rows M -> Forall (fun i => i < rows A) rs ->
  length (mjoin (spec_row mul add A B M <$> rs)) <= cap ->
  num_loop (msaNumericRow mul add two A B M) rs (msa_clean (cols B)) cap =
    Ok (msa_clean (cols B), mkOut (mjoin (spec_row mul add A B M <$> rs)) cap) /\
  sym_loop (msaSymbolicRow A B M) rs (msa_clean_sym (cols B)) =
    Ok (msa_clean_sym (cols B), (fun i => length (spec_row mul add A B M i)) <$> rs).
Proof. exact @seq_msa. Qed.
Print Assumptions C14_msa.

Theorem C14_msa_complemented :
  forall V (mul add : V -> V -> V) (two sorted : bool) (A B M : csr V) rs cap,
  compatible A B M -> distinct_rows M -> Forall (fun i => i < rows A) rs ->
  length (mjoin (compl_cols A B M <$> rs)) <= cap ->
  (exists ls, num_loop (msaNumericRowC mul add two sorted A B M) rs (msa_clean (cols B)) cap = Ok (msa_clean (cols B), mkOut (mjoin ls) cap) /\
     Forall2 (fun i l => is_compl_row mul add A B M i l /\
       if sorted then StronglySorted lt (fst <$> l) else fst <$> l = compl_cols A B M i) rs ls) /\
  sym_loop (msaSymbolicRowC A B M) rs (msa_clean_sym (cols B)) =
    Ok (msa_clean_sym (cols B), (fun i => Z.of_nat (length (compl_cols A B M i))) <$> rs).
Proof. exact @seq_msaC. Qed.
Print Assumptions C14_msa_complemented.

Theorem C14_mca :
  forall V (mul add : V -> V -> V) (A B M : csr V) n rs cap,
  compatible A B M -> sorted_rows B -> sorted_rows M ->
  Forall (fun i => i < rows A /\ row_cols M i <> [] /\ length (row_cols M i) <= n) rs ->
  length (mjoin (spec_row mul add A B M <$> rs)) <= cap ->
  num_loop (mcaNumericRow mul add A B M) rs (mca_clean n) cap = Ok (mca_clean n, mkOut (mjoin (spec_row mul add A B M <$> rs)) cap) /\
  sym_loop (mcaSymbolicRow A B M) rs (mca_clean n) = Ok (mca_clean n, (fun i => length (spec_row mul add A B M i)) <$> rs).
Proof. exact @seq_mca. Qed.
Print Assumptions C14_mca.

Theorem C14_hash :
  forall V (mul add : V -> V -> V) (w : N) (A B M : csr V) rs cap capreq (acc : hash V),
  compatible A B M -> distinct_rows M -> Forall (fun i => i < rows A /\ length (row_cols M i) <= capreq) rs ->
  hash_ok acc -> fits w capreq -> adjustSize w capreq = Ok (length (h_tab acc)) ->
  length (mjoin (spec_row mul add A B M <$> rs)) <= cap ->
  (exists acc', num_loop (hashNumericRow w mul add A B M) rs acc cap = Ok (acc', mkOut (mjoin (spec_row mul add A B M <$> rs)) cap) /\
     hash_ok acc' /\ length (h_tab acc') = length (h_tab acc)) /\
  (exists acc', sym_loop (hashSymbolicRow w A B M) rs acc = Ok (acc', (fun i => length (spec_row mul add A B M i)) <$> rs) /\
     hash_ok acc' /\ length (h_tab acc') = length (h_tab acc)).
Proof. exact @seq_hash. Qed.
Print Assumptions C14_hash.

Theorem C14_hash_complemented :
  forall V (mul add : V -> V -> V) (w : N) (sorted : bool) (A B M : csr V) (rs : list nat) (flops : nat -> nat) cap capreq (acc : hash V),
  compatible A B M -> distinct_rows M ->
  Forall (fun i => i < rows A /\ length (first_touch (touched_cols A B i)) <= flops i /\ length (row_cols M i) + flops i <= capreq) rs ->
  hash_ok acc -> fits w capreq -> adjustSize w capreq = Ok (length (h_tab acc)) ->
  length (mjoin (compl_cols A B M <$> rs)) <= cap ->
  (exists acc' ls, num_loop (fun i => hashNumericRowC w mul add sorted A B M i (flops i)) rs acc cap = Ok (acc', mkOut (mjoin ls) cap) /\
     Forall2 (fun i l => is_compl_row mul add A B M i l /\
       if sorted then StronglySorted lt (fst <$> l) else fst <$> l = compl_cols A B M i) rs ls /\
     hash_ok acc' /\ length (h_tab acc') = length (h_tab acc)) /\
  (exists acc', sym_loop (fun i => hashSymbolicRowC w A B M i (flops i)) rs acc = Ok (acc', (fun i => Z.of_nat (length (compl_cols A B M i))) <$> rs) /\
     hash_ok acc' /\ length (h_tab acc') = length (h_tab acc)).
Proof. exact @seq_hashC. Qed.
Print Assumptions C14_hash_complemented.

Theorem C14_heap :
  forall V (mul add : V -> V -> V) itmax (insp : N) (A B M : csr V) rs cap h,
  compatible A B M -> sorted_rows B -> sorted_rows M ->
  Forall (fun i => i < rows A /\ row_cols M i <> [] /\ length (row_entries A i) <= hcap h) rs -> cols B <= itmax ->
  (insp < 2 \/ insp = 2 ^ 64 - 1 \/ N.of_nat (nnz M) + insp < 2 ^ 64)%N ->
  hp h = [] -> length (mjoin (spec_row mul add A B M <$> rs)) <= cap ->
  (exists h' ls, num_loop (heapNumericRow mul add itmax insp A B M) rs h cap = Ok (h', mkOut (mjoin ls) cap) /\
     Forall2 (fun i l => fst <$> l = fst <$> spec_row mul add A B M i /\
       forall j v, (j, v) ∈ l -> sum_in_some_order mul add A B i j v) rs ls /\ hp h' = [] /\ hcap h' = hcap h) /\
  (exists h', sym_loop (heapSymbolicRow itmax insp A B M) rs h = Ok (h', (fun i => length (spec_row mul add A B M i)) <$> rs) /\
     hp h' = [] /\ hcap h' = hcap h).
Proof. exact @seq_heap. Qed.
Print Assumptions C14_heap.

Theorem C14_heap_complemented :
  forall V (mul add : V -> V -> V) itmax (A B M : csr V) rs cap h,
  compatible A B M -> sorted_rows B -> sorted_rows M ->
  Forall (fun i => i < rows A /\ row_cols M i <> [] /\ length (row_entries A i) <= hcap h) rs -> cols B <= itmax ->
  hp h = [] -> length (mjoin (compl_cols A B M <$> rs)) <= cap ->
  (exists h' ls, num_loop (heapNumericRowC mul add itmax A B M) rs h cap = Ok (h', mkOut (mjoin ls) cap) /\
     Forall2 (fun i l => StronglySorted lt (fst <$> l) /\ (forall j, j ∈ fst <$> l <-> j ∈ compl_cols A B M i) /\
       forall j v, (j, v) ∈ l -> sum_in_some_order mul add A B i j v) rs ls /\ hp h' = [] /\ hcap h' = hcap h) /\
  (exists h', sym_loop (heapSymbolicRowC itmax A B M) rs h = Ok (h', (fun i => length (compl_cols A B M i)) <$> rs) /\
     hp h' = [] /\ hcap h' = hcap h).
Proof. exact @seq_heapC. Qed.
Print Assumptions C14_heap_complemented.

Example C14_example :
  num_loop (msaNumericRow Z.mul Z.add false exA exB exM) [2; 0; 1; 2; 2] (msa_clean 4) 5 =
    Ok (msa_clean 4, mkOut [3 ~> -1; 0 ~> -4; 1 ~> 18; 3 ~> -1; 3 ~> -1] 5) /\
  (r <- num_loop (hashNumericRow 32 Z.mul Z.add exA exB exM) [2; 0; 1; 2; 2] (hash_fresh 16) 5 ;; Ok (snd r)) =
    Ok (mkOut [3 ~> -1; 0 ~> -4; 1 ~> 18; 3 ~> -1; 3 ~> -1] 5) /\
  (r <- num_loop (heapNumericRow Z.mul Z.add 100 1 exA exB exM) [2; 0; 1; 2; 2] (heap_clean 2 0) 5 ;; Ok (snd r)) =
    Ok (mkOut [3 ~> -1; 0 ~> -4; 1 ~> 18; 3 ~> -1; 3 ~> -1] 5).
Proof. repeat split; vm_compute; reflexivity. Qed.

(** ** C23: the output object may be any of the inputs, all of which may be one object. *)
Theorem C23_output_may_be_an_input :
  forall V (alg : rowalg V) (A B M : csr V) (rspec : nat -> list (nat * V)),
  compatible A B M -> 1 <= rows A -> ra_ok alg A B M rspec ->
  exists C, product_matrix A B C (fun i l => l = rspec i) /\
  forall nt iA iB iM iC sc (s : gmap nat (obj V)), 1 <= nt ->
    s !! iA = Some (OMat A) -> s !! iB = Some (OMat B) -> s !! iM = Some (OMat M) -> iC = iA \/ iC = iB \/ iC = iM ->
    driver1p_always alg iA iB iM iC nt sc s (<[iC := OMat C]> s) /\
    forall iR, s !! iR = None -> driver2p_always alg iA iB iM iC iR nt sc s (<[iC := OMat C]> s).
Proof.
  intros V alg A B M rspec HC Hr Hok. destruct (C09_C10_any_row_algorithm V alg A B M rspec HC Hr Hok) as (C & HP & H1 & H2).
  exists C. split; [exact HP|]. intros nt iA iB iM iC sc s Hnt HA HB HM Hal. split; [apply H1; assumption|].
  intros iR HR. apply H2; try assumption. intros ->. destruct Hal as [->|[->| ->]]; congruence.
Qed.
Print Assumptions C23_output_may_be_an_input.
(** For a square matrix multiplied by itself under itself, the result replacing it. *)
Definition exS : csr Z := mkCsr 3 3 6 [0;2;4;6] [0;1;1;2;0;2] [1;2;3;4;5;6]%Z.
Example C23_example : forall sc, exists C,
  driver1p_always (msaAlg Z.mul Z.add true 8) 0 0 0 0 2 sc {[0 := OMat exS]} {[0 := OMat C]} /\
  driver2p_always (msaAlg Z.mul Z.add true 8) 0 0 0 0 1 2 sc {[0 := OMat exS]} {[0 := OMat C]} /\
  row_entries C 0 = [0 ~> 1; 1 ~> 8] /\ row_entries C 2 = [0 ~> 35; 2 ~> 36].
Proof.
  intros sc. destruct (C23_output_may_be_an_input Z (msaAlg Z.mul Z.add true 8) exS exS exS (spec_row Z.mul Z.add exS exS exS)) as (C & HP & H).
  - constructor; first [reflexivity|prove_wf].
  - cbn; lia.
  - apply msaAlg_ok; [constructor; first [reflexivity|prove_wf]|reflexivity|reflexivity|prove_distinct].
  - exists C. destruct (H 2 0 0 0 0 sc {[0 := OMat exS]}) as [H1 H2]; [lia|reflexivity|reflexivity|reflexivity|auto|].
    rewrite insert_singleton in H1, H2. split; [exact H1|]. split; [apply H2; reflexivity|].
    destruct HP as (_ & _ & _ & HR). rewrite !HR by (cbn; lia). split; vm_compute; reflexivity.
Qed.

(** ** C24: only the output object changes, whatever the row algorithm does. *)
Theorem C24_inputs_unchanged :
  forall V (alg : rowalg V) iA iB iM iC iR nt sc s s' j,
  j <> iC -> (driver1p_always alg iA iB iM iC nt sc s s' -> s' !! j = s !! j) /\
  (j <> iR -> driver2p_always alg iA iB iM iC iR nt sc s s' -> s' !! j = s !! j).
Proof.
  intros V alg iA iB iM iC iR nt sc s s' j Hj. split.
  - intros H. eapply driver1p_others; eauto.
  - intros Hr H. eapply driver2p_others; eauto.
Qed.
Print Assumptions C24_inputs_unchanged.
(** [C09_C10_example_call] is a run to which it applies. *)

(** ** C25: the stored positions do not depend on the values, the operations or the value type. *)
Theorem C25_pattern_independent_of_values :
  forall V W (mul add : V -> V -> V) (mul' add' : W -> W -> W) (A B M : csr V) (A' B' M' : csr W),
  compatible A B M -> compatible A' B' M' -> same_pattern A A' -> same_pattern B B' -> same_pattern M M' ->
  distinct_rows M -> distinct_rows M' -> 1 <= rows A ->
  (forall (two two' : bool) (sz sz' : N), (0 < sz)%N -> (0 < sz')%N ->
    ((N.of_nat (cols B) + 1) * (sz + 1) + 8 < 2 ^ 64)%N -> ((N.of_nat (cols B) + 1) * (sz' + 1) + 8 < 2 ^ 64)%N ->
    exists C C', yields1p (msaAlg mul add two sz) A B M C /\ yields2p (msaAlg mul' add' two' sz') A' B' M' C' /\
      same_pattern C C' /\ nnz C = nnz C') /\
  (forall (two two' sorted : bool) (sz sz' : N), (0 < sz)%N -> (0 < sz')%N ->
    ((N.of_nat (cols B) + 1) * (sz + 1) + 8 < 2 ^ 64)%N -> ((N.of_nat (cols B) + 1) * (sz' + 1) + 8 < 2 ^ 64)%N ->
    exists C C', yields1p (msaAlgC mul add two sorted sz) A B M C /\ yields2p (msaAlgC mul' add' two' sorted sz') A' B' M' C' /\
      same_pattern C C' /\ nnz C = nnz C') /\
  (forall (itmax : nat) (insp : N) (sz : N) (mx : nat), sorted_rows B -> sorted_rows B' -> sorted_rows M -> sorted_rows M' ->
    (0 < sz)%N -> cols B <= itmax -> (insp < 2)%N -> (forall i, i < rows A -> length (row_cols A i) <= mx) -> ((N.of_nat mx + 1) * sz + 8 < 2 ^ 64)%N ->
    exists C C', yields1p (heapAlg mul add itmax insp sz) A B M C /\ yields2p (heapAlg mul' add' itmax insp sz) A' B' M' C' /\
      same_pattern C C' /\ nnz C = nnz C').
Proof.
  intros V W mul add mul' add' A B M A' B' M' HC HC' HA HB HM Hd Hd' Hr.
  destruct (pat_shape A B A' B' HA HB) as [Er Ec]. split; [|split].
  - intros two two' sz sz' H1 H2 H3 H4. destruct (msa_drivers mul add A B M two sz) as (C & HP & Y1 & _); try assumption.
    destruct (msa_drivers mul' add' A' B' M' two' sz') as (C' & HP' & _ & Y2); try assumption; [congruence|rewrite <- Ec; assumption|].
    exists C, C'. split; [exact Y1|]. split; [exact Y2|]. exact (pat_plain mul add mul' add' A B M A' B' M' HC HC' HA HB HM C C' HP HP').
  - intros two two' sorted sz sz' H1 H2 H3 H4. destruct (msaC_drivers mul add A B M two sorted sz) as (C & HP & Y1 & _); try assumption.
    destruct (msaC_drivers mul' add' A' B' M' two' sorted sz') as (C' & HP' & _ & Y2); try assumption; [congruence|rewrite <- Ec; assumption|].
    exists C, C'. split; [exact Y1|]. split; [exact Y2|]. exact (pat_compl mul add mul' add' A B M A' B' M' HC HC' HA HB HM C C' sorted HP HP').
  - intros itmax insp sz mx SB SB' SM SM' H1 H2 H3 H4 H5.
    destruct (heap_drivers mul add A B M itmax insp sz mx) as (C & HP & Y1 & _); try assumption; [left; exact H3|].
    destruct (heap_drivers mul' add' A' B' M' itmax insp sz mx) as (C' & HP' & _ & Y2); try assumption; [congruence|congruence|left; exact H3| |].
    { intros i Hi. rewrite <- (pattern_cols A A' i); [apply H4; congruence|apply HC|apply HC'|exact HA]. }
    exists C, C'. split; [exact Y1|]. split; [exact Y2|]. exact (pat_heap mul add mul' add' A B M A' B' M' HC HC' HA HB HM C C' HP HP').
Qed.
Print Assumptions C25_pattern_independent_of_values.

Theorem C25_pattern_mca :
  forall V W (mul add : V -> V -> V) (mul' add' : W -> W -> W) (A B M : csr V) (A' B' M' : csr W) (sz sz' : N) (mx : nat),
  compatible A B M -> compatible A' B' M' -> same_pattern A A' -> same_pattern B B' -> same_pattern M M' ->
  sorted_rows B -> sorted_rows B' -> sorted_rows M -> sorted_rows M' -> 1 <= rows A -> (0 < sz)%N -> (0 < sz')%N ->
  (forall i, i < rows A -> length (row_cols M i) <= mx) -> ((N.of_nat mx + 1) * sz + 8 < 2 ^ 64)%N -> ((N.of_nat mx + 1) * sz' + 8 < 2 ^ 64)%N ->
  exists C C', yields1p (mcaAlg mul add sz) A B M C /\ yields2p (mcaAlg mul' add' sz') A' B' M' C' /\ same_pattern C C' /\ nnz C = nnz C'.
Proof.
  intros V W mul add mul' add' A B M A' B' M' sz sz' mx HC HC' HA HB HM SB SB' SM SM' Hr H1 H2 Hm H3 H4.
  destruct (pat_shape A B A' B' HA HB) as [Er Ec].
  destruct (mca_drivers mul add A B M sz mx) as (C & HP & Y1 & _); try assumption.
  destruct (mca_drivers mul' add' A' B' M' sz' mx) as (C' & HP' & _ & Y2); try assumption; [congruence| |].
  { intros i Hi. rewrite <- (pattern_cols M M' i); [apply Hm; congruence|apply HC|apply HC'|exact HM]. }
  exists C, C'. split; [exact Y1|]. split; [exact Y2|]. exact (pat_plain mul add mul' add' A B M A' B' M' HC HC' HA HB HM C C' HP HP').
Qed.
Print Assumptions C25_pattern_mca.

Theorem C25_pattern_hash :
  forall V W (mul add : V -> V -> V) (mul' add' : W -> W -> W) (A B M : csr V) (A' B' M' : csr W) (w sK sN sN' : N) (mx : nat),
  compatible A B M -> compatible A' B' M' -> same_pattern A A' -> same_pattern B B' -> same_pattern M M' ->
  distinct_rows M -> distinct_rows M' -> 1 <= rows A -> (0 < sK)%N -> (0 < sN)%N -> (0 < sN')%N ->
  (forall i, i < rows A -> length (row_cols M i) <= mx) -> fits w mx ->
  ((8 * (N.of_nat mx + 2) + 1) * N.max sK sN < 2 ^ 64)%N -> (N.lcm sK sN + 8 < 2 ^ 64)%N ->
  ((8 * (N.of_nat mx + 2) + 1) * N.max sK sN' < 2 ^ 64)%N -> (N.lcm sK sN' + 8 < 2 ^ 64)%N ->
  exists C C', yields1p (hashAlg mul add w sK sN) A B M C /\ yields2p (hashAlg mul' add' w sK sN') A' B' M' C' /\ same_pattern C C' /\ nnz C = nnz C'.
Proof.
  intros V W mul add mul' add' A B M A' B' M' w sK sN sN' mx HC HC' HA HB HM Hd Hd' Hr H1 H2 H2' Hm Hf H3 H4 H3' H4'.
  destruct (pat_shape A B A' B' HA HB) as [Er Ec].
  destruct (hash_drivers mul add A B M w sK sN mx) as (C & HP & Y1 & _); try assumption.
  destruct (hash_drivers mul' add' A' B' M' w sK sN' mx) as (C' & HP' & _ & Y2); try assumption; [congruence| |].
  { intros i Hi. rewrite <- (pattern_cols M M' i); [apply Hm; congruence|apply HC|apply HC'|exact HM]. }
  exists C, C'. split; [exact Y1|]. split; [exact Y2|]. exact (pat_plain mul add mul' add' A B M A' B' M' HC HC' HA HB HM C C' HP HP').
Qed.
Print Assumptions C25_pattern_hash.

Theorem C25_pattern_hash_complemented :
  forall V W (mul add : V -> V -> V) (mul' add' : W -> W -> W) (A B M : csr V) (A' B' M' : csr W) (w sK sN sN' : N) (sorted : bool) (mx fx : nat),
  compatible A B M -> compatible A' B' M' -> same_pattern A A' -> same_pattern B B' -> same_pattern M M' ->
  distinct_rows M -> distinct_rows M' -> 1 <= rows A -> (0 < sK)%N -> (0 < sN)%N -> (0 < sN')%N ->
  (forall i, i < rows A -> length (row_cols M i) <= mx) -> (forall i, i < rows A -> length (touched_cols A B i) <= fx) ->
  (forall i, i < rows A -> length (touched_cols A' B' i) <= fx) -> fits w (mx + fx) ->
  ((8 * (N.of_nat (mx + fx) + 2) + 1) * N.max sK sN < 2 ^ 64)%N -> (N.lcm sK sN + 8 < 2 ^ 64)%N ->
  ((8 * (N.of_nat (mx + fx) + 2) + 1) * N.max sK sN' < 2 ^ 64)%N -> (N.lcm sK sN' + 8 < 2 ^ 64)%N ->
  exists C C', yields1p (hashAlgC mul add w sK sN sorted) A B M C /\ yields2p (hashAlgC mul' add' w sK sN' sorted) A' B' M' C' /\
    same_pattern C C' /\ nnz C = nnz C'.
Proof.
  intros V W mul add mul' add' A B M A' B' M' w sK sN sN' sorted mx fx HC HC' HA HB HM Hd Hd' Hr H1 H2 H2' Hm Hx Hx' Hf H3 H4 H3' H4'.
  destruct (pat_shape A B A' B' HA HB) as [Er Ec].
  destruct (hashC_drivers mul add A B M w sK sN sorted mx fx) as (C & HP & Y1 & _); try assumption.
  destruct (hashC_drivers mul' add' A' B' M' w sK sN' sorted mx fx) as (C' & HP' & _ & Y2); try assumption; [congruence| | |].
  { intros i Hi. rewrite <- (pattern_cols M M' i); [apply Hm; congruence|apply HC|apply HC'|exact HM]. }
  { intros i Hi. apply Hx'. congruence. }
  exists C, C'. split; [exact Y1|]. split; [exact Y2|]. exact (pat_compl mul add mul' add' A B M A' B' M' HC HC' HA HB HM C C' sorted HP HP').
Qed.
Print Assumptions C25_pattern_hash_complemented.

Theorem C25_pattern_heap_complemented :
  forall V W (mul add : V -> V -> V) (mul' add' : W -> W -> W) (A B M : csr V) (A' B' M' : csr W) (itmax : nat) (sz : N) (mx : nat),
  compatible A B M -> compatible A' B' M' -> same_pattern A A' -> same_pattern B B' -> same_pattern M M' ->
  sorted_rows B -> sorted_rows B' -> sorted_rows M -> sorted_rows M' -> 1 <= rows A -> (0 < sz)%N -> cols B <= itmax ->
  (forall i, i < rows A -> touched_cols A B i <> [] -> row_cols M i <> []) -> (forall i, i < rows A -> touched_cols A' B' i <> [] -> row_cols M' i <> []) ->
  (forall i, i < rows A -> length (row_cols A i) <= mx) -> ((N.of_nat mx + 1) * sz + 8 < 2 ^ 64)%N ->
  exists C C', yields1p (heapAlgC mul add itmax sz) A B M C /\ yields2p (heapAlgC mul' add' itmax sz) A' B' M' C' /\ same_pattern C C' /\ nnz C = nnz C'.
Proof.
  intros V W mul add mul' add' A B M A' B' M' itmax sz mx HC HC' HA HB HM SB SB' SM SM' Hr H1 H2 Hn Hn' Hm H3.
  destruct (pat_shape A B A' B' HA HB) as [Er Ec].
  destruct (heapC_drivers mul add A B M itmax sz mx) as (C & HP & Y1 & _); try assumption.
  destruct (heapC_drivers mul' add' A' B' M' itmax sz mx) as (C' & HP' & _ & Y2); try assumption; [congruence|congruence| | |].
  { intros i Hi. apply Hn'. congruence. }
  { intros i Hi. rewrite <- (pattern_cols A A' i); [apply Hm; congruence|apply HC|apply HC'|exact HA]. }
  exists C, C'. split; [exact Y1|]. split; [exact Y2|]. exact (pat_heapC mul add mul' add' A B M A' B' M' HC HC' HA HB HM C C' HP HP').
Qed.
Print Assumptions C25_pattern_heap_complemented.

(** A cancellation to 0 is stored: *)
Definition exA0 : csr Z := mkCsr 3 3 4 [0;2;2;4] [0;2;1;2] [2;1;0;0]%Z.
Example C25_example : compatible exA0 exB exM /\ same_pattern exA exA0 /\
  spec_row Z.mul Z.add exA0 exB exM 0 = [0 ~> 0; 1 ~> 6] /\ spec_row Z.mul Z.add exA0 exB exM 2 = [3 ~> 0] /\
  spec_row Z.mul Z.add exA exB exM 0 = [0 ~> -4; 1 ~> 18].
Proof. split; [constructor; first [prove_wf|reflexivity]|]. repeat split; vm_compute; reflexivity. Qed.

(** ** C26: plain and complemented results are disjoint and together are the unmasked product. *)
Theorem C26_plain_and_complement_partition :
  forall V (mul add : V -> V -> V) (A B M : csr V) (two two' sorted : bool) (sz : N),
  compatible A B M -> distinct_rows M -> 1 <= rows A -> (0 < sz)%N ->
  ((N.of_nat (cols B) + 1) * (sz + 1) + 8 < 2 ^ 64)%N ->
  exists C Cc, yields1p (msaAlg mul add two sz) A B M C /\ yields2p (msaAlg mul add two sz) A B M C /\
    yields1p (msaAlgC mul add two' sorted sz) A B M Cc /\ yields2p (msaAlgC mul add two' sorted sz) A B M Cc /\
    forall i j, i < rows A ->
      (forall v, prod_entry mul add A B i j = Some v <-> (j, v) ∈ row_entries C i \/ (j, v) ∈ row_entries Cc i) /\
      ~ (j ∈ row_cols C i /\ j ∈ row_cols Cc i).
Proof.
  intros V mul add A B M two two' sorted sz HC Hd Hr Hs Hb.
  destruct (msa_drivers mul add A B M two sz HC Hd Hr Hs Hb) as (C & HP & H1 & H2).
  destruct (msaC_drivers mul add A B M two' sorted sz HC Hd Hr Hs Hb) as (Cc & HPc & H3 & H4).
  exists C, Cc. do 4 (split; [assumption|]). intros i j Hi. exact (partition_drivers mul add A B M C Cc (fun i l => if sorted then StronglySorted lt (fst <$> l) else fst <$> l = compl_cols A B M i) HP HPc i j Hi).
Qed.
Print Assumptions C26_plain_and_complement_partition.

Theorem C26_hash_partition :
  forall V (mul add : V -> V -> V) (A B M : csr V) (w sK sN : N) (sorted : bool) (mx fx : nat),
  compatible A B M -> distinct_rows M -> 1 <= rows A -> (0 < sK)%N -> (0 < sN)%N ->
  (forall i, i < rows A -> length (row_cols M i) <= mx) -> (forall i, i < rows A -> length (touched_cols A B i) <= fx) ->
  fits w mx -> fits w (mx + fx) ->
  ((8 * (N.of_nat (mx + fx) + 2) + 1) * N.max sK sN < 2 ^ 64)%N -> (N.lcm sK sN + 8 < 2 ^ 64)%N ->
  exists C Cc, yields1p (hashAlg mul add w sK sN) A B M C /\ yields2p (hashAlg mul add w sK sN) A B M C /\
    yields1p (hashAlgC mul add w sK sN sorted) A B M Cc /\ yields2p (hashAlgC mul add w sK sN sorted) A B M Cc /\
    forall i j, i < rows A ->
      (forall v, prod_entry mul add A B i j = Some v <-> (j, v) ∈ row_entries C i \/ (j, v) ∈ row_entries Cc i) /\
      ~ (j ∈ row_cols C i /\ j ∈ row_cols Cc i).
Proof.
  intros V mul add A B M w sK sN sorted mx fx HC Hd Hr HK HN Hm Hx Hf Hf2 Hb Hl.
  destruct (hash_drivers mul add A B M w sK sN mx HC Hd Hr HK HN Hm Hf) as (C & HP & H1 & H2).
  { eapply N.le_lt_trans; [|exact Hb]. apply N.mul_le_mono_r. lia. }
  { exact Hl. }
  destruct (hashC_drivers mul add A B M w sK sN sorted mx fx HC Hd Hr HK HN Hm Hx Hf2 Hb Hl) as (Cc & HPc & H3 & H4).
  exists C, Cc. do 4 (split; [assumption|]). intros i j Hi. exact (partition_drivers mul add A B M C Cc (fun i l => if sorted then StronglySorted lt (fst <$> l) else fst <$> l = compl_cols A B M i) HP HPc i j Hi).
Qed.
Print Assumptions C26_hash_partition.

(** Row 2 of the example: products in columns 0, 1 and 3; the mask has column 3. *)
Example C26_example : spec_row Z.mul Z.add exA exB exM 2 = [3 ~> -1] /\ compl_cols exA exB exM 2 = [1; 0] /\
  (prod_entry Z.mul Z.add exA exB 2 <$> [0; 1; 2; 3]) = [Some 2; Some 29; None; Some (-1)]%Z.
Proof. repeat split; vm_compute; reflexivity. Qed.

(** ** C27: no rows.  False of the code: the prefix sum stores to dst[0] of an array of length 0, so
    neither driver has a fault-free run, for any algorithm. *)
Theorem C27_zero_rows_refuted :
  forall V (alg : rowalg V) (A B M : csr V) iA iB iM iC iR nt sc s s',
  s !! iA = Some (OMat A) -> rows A = 0 ->
  ~ driver1p_always alg iA iB iM iC nt sc s s' /\ ~ driver2p_always alg iA iB iM iC iR nt sc s s' /\
  excIsSeq 0 nt = true /\ excSeq 0 Nat.add [] 0 [] = Err OutOfBounds.
Proof.
  intros V alg A B M iA iB iM iC iR nt sc s s' HA Hr. split; [eapply no_rows_1p; eauto|]. split; [eapply no_rows_2p; eauto|]. split; reflexivity.
Qed.
Print Assumptions C27_zero_rows_refuted.
Example C27_example : compatible (mkCsr 0 0 0 [0] [] []) (mkCsr 0 0 0 [0] [] []) (mkCsr (V := Z) 0 0 0 [0] [] []).
Proof. constructor; first [prove_wf|reflexivity]. Qed.
(** Matrices with rows but no entries are handled: the result is the matrix without entries, with
    every entry of rowptr 0. *)
Theorem C27_no_entries :
  forall V (mul add : V -> V -> V) (A B M : csr V) (two : bool) (sz : N),
  compatible A B M -> distinct_rows M -> 1 <= rows A -> (0 < sz)%N ->
  ((N.of_nat (cols B) + 1) * (sz + 1) + 8 < 2 ^ 64)%N -> nnz A = 0 \/ nnz B = 0 \/ nnz M = 0 ->
  let C := mkCsr (rows A) (cols B) 0 (replicate (rows A + 1) 0) [] [] in
  yields1p (msaAlg mul add two sz) A B M C /\ yields2p (msaAlg mul add two sz) A B M C.
Proof.
  intros V mul add A B M two sz HC Hd Hr Hs Hb H0. destruct (msa_drivers mul add A B M two sz HC Hd Hr Hs Hb) as (C & HP & Y).
  rewrite (empty_product A B C _ HP) in Y; [exact Y|]. intros i l _ ->. apply no_entries_spec; assumption.
Qed.
Print Assumptions C27_no_entries.
Theorem C27_no_entries_hash :
  forall V (mul add : V -> V -> V) (A B M : csr V) (w sK sN : N) (mx : nat),
  compatible A B M -> distinct_rows M -> 1 <= rows A -> (0 < sK)%N -> (0 < sN)%N ->
  (forall i, i < rows A -> length (row_cols M i) <= mx) -> fits w mx ->
  ((8 * (N.of_nat mx + 2) + 1) * N.max sK sN < 2 ^ 64)%N -> (N.lcm sK sN + 8 < 2 ^ 64)%N -> nnz A = 0 \/ nnz B = 0 \/ nnz M = 0 ->
  let C := mkCsr (rows A) (cols B) 0 (replicate (rows A + 1) 0) [] [] in
  yields1p (hashAlg mul add w sK sN) A B M C /\ yields2p (hashAlg mul add w sK sN) A B M C.
Proof.
  intros V mul add A B M w sK sN mx HC Hd Hr HK HN Hm Hf Hb Hl H0. destruct (hash_drivers mul add A B M w sK sN mx HC Hd Hr HK HN Hm Hf Hb Hl) as (C & HP & Y).
  rewrite (empty_product A B C _ HP) in Y; [exact Y|]. intros i l _ ->. apply no_entries_spec; assumption.
Qed.
Print Assumptions C27_no_entries_hash.
Theorem C27_no_entries_mca_heap :
  forall V (mul add : V -> V -> V) (A B M : csr V) (itmax : nat) (insp sz sz' : N) (mx mx' : nat),
  compatible A B M -> sorted_rows B -> sorted_rows M -> 1 <= rows A -> (0 < sz)%N -> (0 < sz')%N ->
  (forall i, i < rows A -> length (row_cols M i) <= mx) -> ((N.of_nat mx + 1) * sz + 8 < 2 ^ 64)%N ->
  (forall i, i < rows A -> length (row_cols A i) <= mx') -> ((N.of_nat mx' + 1) * sz' + 8 < 2 ^ 64)%N ->
  cols B <= itmax -> (insp < 2 \/ insp = 2 ^ 64 - 1 \/ N.of_nat (nnz M) + insp < 2 ^ 64)%N -> nnz A = 0 \/ nnz B = 0 \/ nnz M = 0 ->
  let C := mkCsr (rows A) (cols B) 0 (replicate (rows A + 1) 0) [] [] in
  yields1p (mcaAlg mul add sz) A B M C /\ yields2p (mcaAlg mul add sz) A B M C /\
  yields1p (heapAlg mul add itmax insp sz') A B M C /\ yields2p (heapAlg mul add itmax insp sz') A B M C.
Proof.
  intros V mul add A B M itmax insp sz sz' mx mx' HC SB SM Hr H1 H2 Hm H3 Hm' H4 Hi Hin H0.
  destruct (mca_drivers mul add A B M sz mx HC SB SM Hr H1 Hm H3) as (C & HP & Y1 & Y2).
  destruct (heap_drivers mul add A B M itmax insp sz' mx' HC SB SM Hr H2 Hi Hin Hm' H4) as (C' & HP' & Y3 & Y4).
  rewrite (empty_product A B C _ HP) in Y1, Y2 by (intros i l _ ->; apply no_entries_spec; assumption).
  assert (E' : C' = mkCsr (rows A) (cols B) 0 (replicate (rows A + 1) 0) [] []).
  { apply (empty_product A B C' _ HP'). intros i l _ [E _]. rewrite no_entries_spec in E by assumption. apply fmap_nil_inv in E. exact E. }
  rewrite E' in Y3, Y4. cbv zeta. auto.
Qed.
Print Assumptions C27_no_entries_mca_heap.
Theorem C27_no_entries_complemented :
  forall V (mul add : V -> V -> V) (A B M : csr V) (two sorted : bool) (sz : N),
  compatible A B M -> distinct_rows M -> 1 <= rows A -> (0 < sz)%N ->
  ((N.of_nat (cols B) + 1) * (sz + 1) + 8 < 2 ^ 64)%N -> nnz A = 0 \/ nnz B = 0 ->
  let C := mkCsr (rows A) (cols B) 0 (replicate (rows A + 1) 0) [] [] in
  yields1p (msaAlgC mul add two sorted sz) A B M C /\ yields2p (msaAlgC mul add two sorted sz) A B M C.
Proof.
  intros V mul add A B M two sorted sz HC Hd Hr Hs Hb H0. destruct (msaC_drivers mul add A B M two sorted sz HC Hd Hr Hs Hb) as (C & HP & Y).
  rewrite (empty_product A B C _ HP) in Y; [exact Y|]. intros i l _ [Hl _].
  pose proof (compl_keys _ _ _ _ _ _ _ Hl) as K. rewrite no_entries_compl in K by (try apply HC; exact H0).
  destruct l as [|[j v] l]; [reflexivity|]. exfalso. apply (not_elem_of_nil j), K. rewrite fmap_cons. left.
Qed.
Print Assumptions C27_no_entries_complemented.
Example C27_example_no_entries : let E := mkCsr (V := Z) 3 4 0 [0;0;0;0] [] [] in
  compatible exA exB E /\ distinct_rows E /\ nnz E = 0 /\ yields1p (msaAlg Z.mul Z.add false 8) exA exB E E.
Proof.
  assert (HC : compatible exA exB (mkCsr (V := Z) 3 4 0 [0;0;0;0] [] [])) by (constructor; first [prove_wf|reflexivity]).
  assert (Hd : distinct_rows (mkCsr (V := Z) 3 4 0 [0;0;0;0] [] [])) by prove_distinct.
  cbv zeta. split; [exact HC|]. split; [exact Hd|]. split; [reflexivity|].
  apply (C27_no_entries Z Z.mul Z.add exA exB _ false 8 HC Hd); [cbn; lia|reflexivity|reflexivity|right; right; reflexivity].
Qed.

(** ** C28 (drivers): the region is free of data races exactly when every thread but the last has a
    row.  A thread without rows reads C.rowptr[rowBegin] while its owner writes it. *)
Theorem C28_driver_races :
  forall V (alg : rowalg V) (A B M : csr V) (rspec : nat -> list (nat * V)),
  compatible A B M -> ra_ok alg A B M rspec -> forall nt, 1 <= nt -> 1 <= rows A ->
  forall iA iB iM iC iR sc (s : gmap nat (obj V)),
  s !! iA = Some (OMat A) -> s !! iB = Some (OMat B) -> s !! iM = Some (OMat M) -> s !! iR = None ->
  (driver1p_race_free alg iA iB iM iC nt sc s <-> all_busy (ra_compl alg) A B M nt) /\
  (driver2p_race_free alg iA iB iM iR nt sc s <-> all_busy (ra_compl alg) A B M nt).
Proof.
  intros V alg A B M rspec HC Hok nt Hnt Hr iA iB iM iC iR sc s HA HB HM HR.
  split; [eapply driver1p_race_iff; eassumption|eapply driver2p_race_iff; eassumption].
Qed.
Print Assumptions C28_driver_races.

(** So the claim is false: with more than rows + 1 threads there is always a race, on every input. *)
Theorem C28_driver_race_refuted :
  forall V (mul add : V -> V -> V) (A B M : csr V) (two : bool) (sz : N) nt iA iB iM iC iR sc (s : gmap nat (obj V)),
  compatible A B M -> distinct_rows M -> 1 <= rows A -> (0 < sz)%N ->
  ((N.of_nat (cols B) + 1) * (sz + 1) + 8 < 2 ^ 64)%N -> rows A + 1 < nt ->
  s !! iA = Some (OMat A) -> s !! iB = Some (OMat B) -> s !! iM = Some (OMat M) -> s !! iR = None ->
  ~ driver1p_race_free (msaAlg mul add two sz) iA iB iM iC nt sc s /\ ~ driver2p_race_free (msaAlg mul add two sz) iA iB iM iR nt sc s.
Proof.
  intros V mul add A B M two sz nt iA iB iM iC iR sc s HC Hd Hr Hs Hb Hnt HA HB HM HR.
  pose proof (msaAlg_ok mul add A B M HC two sz Hs Hb Hd) as Hok.
  destruct (C28_driver_races V _ A B M _ HC Hok nt ltac:(lia) Hr iA iB iM iC iR sc s HA HB HM HR) as [H1 H2].
  rewrite H1, H2. split; eapply too_many_threads; try eassumption; lia.
Qed.
Print Assumptions C28_driver_race_refuted.
Example C28_example_race : forall sc,
  ~ driver1p_race_free (msaAlg Z.mul Z.add false 8) 0 1 2 3 5 sc {[0 := OMat exA; 1 := OMat exB; 2 := OMat exM]}.
Proof.
  intros sc. eapply (C28_driver_race_refuted Z Z.mul Z.add exA exB exM false 8 5 0 1 2 3 4 sc); try reflexivity;
    [exact ex_compat|exact exM_distinct|cbn; lia|cbn; lia].
Qed.
(** With two threads the example has no race: flops 5, 0, 4. *)
Example C28_example_race_free : forall sc,
  driver1p_race_free (msaAlg Z.mul Z.add false 8) 0 1 2 3 2 sc {[0 := OMat exA; 1 := OMat exB; 2 := OMat exM]}.
Proof.
  intros sc. eapply (C28_driver_races Z (msaAlg Z.mul Z.add false 8) exA exB exM (spec_row Z.mul Z.add exA exB exM) ex_compat) with (iR := 4); try reflexivity;
    [apply msaAlg_ok; [exact ex_compat|reflexivity|reflexivity|exact exM_distinct]|lia|cbn; lia|].
  exists [5; 0; 4], [0; 5; 5], 9. split.
  - split.
    + exact (calculateFlopsM_ok exA exB exM (replicate 3 None) ex_compat ltac:(rewrite replicate_length; cbn; lia)).
    + apply (exclusive_scan_ok 0 Nat.add [5; 0; 4] 3 2 (replicate 3 None)); try (intros; lia); cbn; lia.
  - intros t Ht. destruct t as [|t]; [|lia]. exists 0, 1. split; [vm_compute; reflexivity|lia].
Qed.
