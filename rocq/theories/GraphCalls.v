(** The product calls of the graph programs: f(T, T, C, T, f_one, plus) for every modelled algorithm. *)
From Coq Require Import NArith ZArith.
From stdpp Require Import numbers list_numbers gmap.
From Verif Require Import BaseProofs McaProofs MsaModel HashModel HeapModel DriverModel AlgModel DriverStatements Assemble InnerDriverModel InnerDriverStatements
  MatModel MatSpec MatStatements GraphSpec GraphModel GraphProofs PropInnerDriver.
From Verif Require Import Base Spec.

(** The routines f that the programs pass to the benchmark functions (KTrussAllGrb.cpp 493-580, TriCntAllGrb.cpp 349-439),
    for matrices with [n] rows and columns; with the object sizes for which the scratch memory has
    less than 2^64 bytes. *)
Inductive libraryCall (n : nat) : (csr Z -> csr Z -> Prop) -> Prop :=
| lc_msa1 two sz : (0 < sz)%N -> ((N.of_nat n + 1) * (sz + 1) + 8 < 2 ^ 64)%N -> libraryCall n (fun T C => yields1p (msaAlg fOne Z.add two sz) T T T C)
| lc_msa2 two sz : (0 < sz)%N -> ((N.of_nat n + 1) * (sz + 1) + 8 < 2 ^ 64)%N -> libraryCall n (fun T C => yields2p (msaAlg fOne Z.add two sz) T T T C)
| lc_mca1 sz : (0 < sz)%N -> ((N.of_nat n + 1) * sz + 8 < 2 ^ 64)%N -> libraryCall n (fun T C => yields1p (mcaAlg fOne Z.add sz) T T T C)
| lc_mca2 sz : (0 < sz)%N -> ((N.of_nat n + 1) * sz + 8 < 2 ^ 64)%N -> libraryCall n (fun T C => yields2p (mcaAlg fOne Z.add sz) T T T C)
| lc_hash1 w sK sN : (0 < sK)%N -> (0 < sN)%N -> fits w n -> ((8 * (N.of_nat n + 2) + 1) * N.max sK sN < 2 ^ 64)%N -> (N.lcm sK sN + 8 < 2 ^ 64)%N ->
    libraryCall n (fun T C => yields1p (hashAlg fOne Z.add w sK sN) T T T C)
| lc_hash2 w sK sN : (0 < sK)%N -> (0 < sN)%N -> fits w n -> ((8 * (N.of_nat n + 2) + 1) * N.max sK sN < 2 ^ 64)%N -> (N.lcm sK sN + 8 < 2 ^ 64)%N ->
    libraryCall n (fun T C => yields2p (hashAlg fOne Z.add w sK sN) T T T C)
| lc_heap1 itmax insp sz : (0 < sz)%N -> n <= itmax -> (insp < 2 \/ insp = 2 ^ 64 - 1 \/ N.of_nat (n * n) + insp < 2 ^ 64)%N ->
    ((N.of_nat n + 1) * sz + 8 < 2 ^ 64)%N -> libraryCall n (fun T C => yields1p (heapAlg fOne Z.add itmax insp sz) T T T C)
| lc_heap2 itmax insp sz : (0 < sz)%N -> n <= itmax -> (insp < 2 \/ insp = 2 ^ 64 - 1 \/ N.of_nat (n * n) + insp < 2 ^ 64)%N ->
    ((N.of_nat n + 1) * sz + 8 < 2 ^ 64)%N -> libraryCall n (fun T C => yields2p (heapAlg fOne Z.add itmax insp sz) T T T C)
| lc_inner1 : libraryCall n (fun T C => exists Tc, wf_csc Tc /\ same_matrix T Tc /\ sorted_cols Tc /\ yieldsI1p fOne Z.add T Tc T C)
| lc_inner2 : libraryCall n (fun T C => exists Tc, wf_csc Tc /\ same_matrix T Tc /\ sorted_cols Tc /\ yieldsI2p fOne Z.add T Tc T C).

(** Square, rows in order. *)
Lemma good_compat {V} n (T : csr V) : good n T -> compatible T T T.
Proof. intros (Hw & _ & Hr & Hc). split; congruence || assumption. Qed.
Lemma good_row_len {V} n (T : csr V) i : good n T -> i < n -> length (row_cols T i) <= n.
Proof.
  intros HG Hi. pose proof (seq_length n 0) as Hsl. rewrite <- Hsl. clear Hsl. apply submseteq_length, NoDup_submseteq; [eapply good_nodup; eauto|].
  intros w Hw. apply elem_of_seq. pose proof (good_col n T i w HG Hi Hw). lia.
Qed.
Lemma good_nnz {V} n (T : csr V) : good n T -> nnz T <= n * n.
Proof.
  intros HG. pose proof HG as (Hw & _ & Hr & _). rewrite (nnz_rows T Hw), Hr.
  destruct (sum_le (fun i => length (row_cols T i)) (fun _ => n) (seq 0 n)) as [H _].
  { intros i Hi. apply elem_of_seq in Hi. eapply good_row_len; [exact HG|lia]. }
  etransitivity; [exact H|]. assert (E : forall l : list nat, sum_list ((fun _ => n) <$> l) = length l * n).
  { induction l as [|x l IH]; [reflexivity|]. rewrite fmap_cons. change (sum_list (n :: ((fun _ => n) <$> l))) with (n + sum_list ((fun _ => n) <$> l)).
    rewrite IH. reflexivity. }
  rewrite E, seq_length. reflexivity.
Qed.

(** Every matrix has a column form with sorted columns. *)
Definition tr_csc {V} (A : csr V) : csc V := mkCsc (cols A) (rows A) (nnz A) (rowptr A) (colids A) (values A).
Lemma tr_csc_tr {V} (A : csr V) : csc_tr (tr_csc A) = A.
Proof. destruct A; reflexivity. Qed.
Lemma csc_ex (T : csr Z) : wf T -> sorted_rows T -> exists Tc, wf_csc Tc /\ same_matrix T Tc /\ sorted_cols Tc.
Proof.
  intros Hw Hs. destruct (csrOfCsc_correct 0%Z (tr_csc T)) as (A & _ & Hwf & [Sr Sc Se] & _ & _ & Hrow).
  { unfold wf_csc. rewrite tr_csc_tr. exact Hw. }
  cbn [c_rows c_cols tr_csc] in Sr, Sc.
  exists (tr_csc A). split; [unfold wf_csc; rewrite tr_csc_tr; exact Hwf|]. split.
  - split; [exact (eq_sym Sc)|exact (eq_sym Sr)|]. intros k j b Hk Hj. unfold col_entries. rewrite tr_csc_tr.
    rewrite <- Sr in Hj. rewrite <- Sc in Hk. rewrite (Se j k b Hj Hk). unfold col_entries. rewrite tr_csc_tr. reflexivity.
  - intros j Hj. unfold col_entries. rewrite tr_csc_tr. apply Hrow; [exact Hj|]. intros i Hi. unfold col_entries. rewrite tr_csc_tr. apply SSorted_NoDup, Hs, Hi.
Qed.

Definition st3 (T : csr Z) : gmap nat (obj Z) := {[ 0 := OMat T ]}.
Definition st3c (T : csr Z) (Tc : csc Z) : gmap nat (obj Z) := <[1 := OCsc Tc]> {[ 0 := OMat T ]}.
Definition sc0 : scratch := fun _ => (0%N, fun _ => false).
Lemma insert_inj (m : gmap nat (obj Z)) i C C' : <[i := OMat C]> m = <[i := OMat C']> m -> C = C'.
Proof. intros E. apply (f_equal (lookup i)) in E. rewrite !lookup_insert in E. congruence. Qed.
Lemma yields1p_unique (alg : rowalg Z) T C C' : yields1p alg T T T C -> yields1p alg T T T C' -> C = C'.
Proof.
  intros H H'. apply (insert_inj (st3 T) 1). apply (driver1p_unique alg 0 0 0 1 1 sc0 (st3 T)); [apply H|apply H']; auto; lia.
Qed.
Lemma yields2p_unique (alg : rowalg Z) T C C' : yields2p alg T T T C -> yields2p alg T T T C' -> C = C'.
Proof.
  intros H H'. apply (insert_inj (st3 T) 1). apply (driver2p_unique alg 0 0 0 1 2 1 sc0 (st3 T)); [apply H|apply H']; auto; lia.
Qed.
Lemma yieldsI1p_unique T Tc C C' : yieldsI1p fOne Z.add T Tc T C -> yieldsI1p fOne Z.add T Tc T C' -> C = C'.
Proof.
  intros H H'. apply (insert_inj (st3c T Tc) 2). apply (inner1p_unique fOne Z.add 0 1 0 2 1 (st3c T Tc)); [apply H|apply H']; auto; lia.
Qed.
Lemma yieldsI2p_unique T Tc C C' : yieldsI2p fOne Z.add T Tc T C -> yieldsI2p fOne Z.add T Tc T C' -> C = C'.
Proof.
  intros H H'. apply (insert_inj (st3c T Tc) 2). apply (inner2p_unique fOne Z.add 0 1 0 2 1 (st3c T Tc)); [apply H|apply H']; auto; lia.
Qed.

Definition isProduct (T C : csr Z) : Prop := product_matrix T T C (fun i l => l = spec_row fOne Z.add T T T i).
Lemma library_ok n mxm : libraryCall n mxm -> 1 <= n -> forall T, good n T ->
  (exists C, mxm T C) /\ forall C, mxm T C -> isProduct T C.
Proof.
  intros HL Hn T HG. pose proof HG as (Hw & Hs & Hr & Hc). pose proof (good_compat n T HG) as HC.
  assert (Hl : forall i, i < rows T -> length (row_cols T i) <= n) by (intros i Hi; eapply good_row_len; [exact HG|lia]).
  destruct (agree fOne Z.add T T T HC Hs Hs ltac:(lia)) as (C & HP & H1 & H2 & H3 & H4). rewrite ?Hc in *.
  specialize (H4 Z.add_comm Z.add_assoc).
  assert (HI : forall Tc, wf_csc Tc -> same_matrix T Tc -> sorted_cols Tc -> yieldsI1p fOne Z.add T Tc T C /\ yieldsI2p fOne Z.add T Tc T C).
  { intros Tc W1 W2 W3. assert (Hd : distinct_rows T) by (intros i Hi; apply SSorted_NoDup, Hs, Hi).
    destruct (C09_C10_inner Z fOne Z.add T T T Tc HC W1 W2 Hs Hd W3 ltac:(lia)) as (C' & HP' & H). rewrite (product_unique T T C C' _ HP HP'). exact H. }
  destruct HL as [two sz X1 X2|two sz X1 X2|sz X1 X2|sz X1 X2|w sK sN X1 X2 X3 X4 X5|w sK sN X1 X2 X3 X4 X5|itmax insp sz X1 X2 X3 X4|itmax insp sz X1 X2 X3 X4| |].
  - destruct (H1 two sz X1 X2) as [Y _]. split; [exists C; exact Y|]. intros C' Y'. rewrite (yields1p_unique _ T C' C Y' Y). exact HP.
  - destruct (H1 two sz X1 X2) as [_ Y]. split; [exists C; exact Y|]. intros C' Y'. rewrite (yields2p_unique _ T C' C Y' Y). exact HP.
  - destruct (H2 sz n X1 Hl X2) as [Y _]. split; [exists C; exact Y|]. intros C' Y'. rewrite (yields1p_unique _ T C' C Y' Y). exact HP.
  - destruct (H2 sz n X1 Hl X2) as [_ Y]. split; [exists C; exact Y|]. intros C' Y'. rewrite (yields2p_unique _ T C' C Y' Y). exact HP.
  - destruct (H3 w sK sN n X1 X2 Hl X3 X4 X5) as [Y _]. split; [exists C; exact Y|]. intros C' Y'. rewrite (yields1p_unique _ T C' C Y' Y). exact HP.
  - destruct (H3 w sK sN n X1 X2 Hl X3 X4 X5) as [_ Y]. split; [exists C; exact Y|]. intros C' Y'. rewrite (yields2p_unique _ T C' C Y' Y). exact HP.
  - assert (X3' : (insp < 2 \/ insp = 2 ^ 64 - 1 \/ N.of_nat (nnz T) + insp < 2 ^ 64)%N) by (pose proof (good_nnz n T HG); lia).
    destruct (H4 itmax insp sz n X1 X2 X3' Hl X4) as [Y _]. split; [exists C; exact Y|]. intros C' Y'. rewrite (yields1p_unique _ T C' C Y' Y). exact HP.
  - assert (X3' : (insp < 2 \/ insp = 2 ^ 64 - 1 \/ N.of_nat (nnz T) + insp < 2 ^ 64)%N) by (pose proof (good_nnz n T HG); lia).
    destruct (H4 itmax insp sz n X1 X2 X3' Hl X4) as [_ Y]. split; [exists C; exact Y|]. intros C' Y'. rewrite (yields2p_unique _ T C' C Y' Y). exact HP.
  - split.
    + destruct (csc_ex T Hw Hs) as (Tc & W1 & W2 & W3). exists C, Tc. split; [exact W1|]. split; [exact W2|]. split; [exact W3|]. apply HI; assumption.
    + intros C' (Tc & W1 & W2 & W3 & Y'). destruct (HI Tc W1 W2 W3) as [Y _]. rewrite (yieldsI1p_unique T Tc C' C Y' Y). exact HP.
  - split.
    + destruct (csc_ex T Hw Hs) as (Tc & W1 & W2 & W3). exists C, Tc. split; [exact W1|]. split; [exact W2|]. split; [exact W3|]. apply HI; assumption.
    + intros C' (Tc & W1 & W2 & W3 & Y'). destruct (HI Tc W1 W2 W3) as [_ Y]. rewrite (yieldsI2p_unique T Tc C' C Y' Y). exact HP.
Qed.
