(** C47: innerSpGEMM_nohash.  Words used: [innerSpGEMM_nohash_ends] (NohashModel: the call always ends,
    whatever the interleaving, with this matrix; the number before it is C_final.nnz at the start);
    [products], [spec_row], [same_matrix], [sorted_cols] (Spec). *)
From stdpp Require Import numbers.
From Coq Require Import ZArith.
From Verif Require Import NohashModel BaseProofs ComplProofs WorkProofs Assemble NohashProofs PropLegacyScan PropInner Examples.
From Verif Require Import Base Spec.

(** The column of B that BIN.h reads for an entry of A in column [k] is column [k]. *)
Definition bin_work {V} (A : csr V) (Bc : csc V) (i : nat) : nat := sum_list ((fun k => length (col_entries Bc k)) <$> row_cols A i).

Lemma nohash_ok {V} (dflt zero : V) mul add W top nts nt min (A B M : csr V) (Bc : csc V) nnz0 :
  compatible A B M -> wf_csc Bc -> same_matrix B Bc ->
  (forall i, i < rows A -> StronglySorted lt (row_cols A i)) -> distinct_rows B -> sorted_cols Bc ->
  rows A <> 0 -> 1 <= nt -> (N.of_nat (rows A + 1) < 2 ^ 17)%N -> rows A + nt <= W -> 1 <= min < W ->
  (forall p k, colids A !! p = Some k -> k < cols B) ->
  sum_list (bin_work A Bc <$> seq 0 (rows A)) + nt <= W -> (forall i, i < rows A -> 2 * Nat.min (bin_work A Bc i) (cols B) <= W) ->
  innerSpGEMM_nohash_ends dflt zero mul add W top nts nt min A Bc M nnz0 (nhOut dflt zero mul add A B M nnz0) /\
  forall C, innerSpGEMM_nohash_ends dflt zero mul add W top nts nt min A Bc M nnz0 C -> C = nhOut dflt zero mul add A B M nnz0.
Proof.
  intros Hco HBc Hsm HsA Hd HsB H0 Hnt HN HrW [Hm HmW] Hin HW Hf.
  destruct (nohash_region_end dflt zero mul add W nt A B M Bc Hco HBc Hsm HsA Hd HsB Hnt HrW nnz0) as (_ & (ids & vals & nz & th & Hal & Hfi) & Hu).
  assert (Hc : cols M = c_cols Bc) by (rewrite (co_cols A B M Hco); apply (sm_cols B Bc Hsm)).
  rewrite (sm_cols B Bc Hsm) in Hf.
  destruct (nh_bin_ok W top nts nt min A Bc (co_A A B M Hco) HBc ltac:(intros p c Hp; rewrite <- (sm_cols B Bc Hsm); eapply Hin, Hp) H0 Hnt HN HW Hm HmW Hf) as [b Hb].
  split.
  - exists b, ids, vals, nz, th. rewrite Hc. auto.
  - intros C (b' & ids' & vals' & nz' & th' & _ & Hal' & Hfi'). eapply Hu; eassumption.
Qed.

(** C47.  A's rows and B's columns in order, fewer than 2^17 - 1 rows, every column of A also a column of B,
    counts that fit the index type, C_final.nnz = 0 at the start: for every number of threads and every
    interleaving the call ends with one and the same matrix.  Row [i] has the mask's columns, in the mask's order
    (and as often as the mask has them), at which there is a product; the value is the sum of the products
    started at 0.  When 0 is neutral for addop this is the masked product. *)
Theorem C47_nohash_partial :
  forall V (dflt zero : V) mul add W top nts nt min (A B M : csr V) (Bc : csc V),
  compatible A B M -> wf_csc Bc -> same_matrix B Bc ->
  (forall i, i < rows A -> StronglySorted lt (row_cols A i)) -> distinct_rows B -> sorted_cols Bc ->
  rows A <> 0 -> 1 <= nt -> (N.of_nat (rows A + 1) < 2 ^ 17)%N -> rows A + nt <= W -> 1 <= min < W ->
  (forall p k, colids A !! p = Some k -> k < cols B) ->
  sum_list (bin_work A Bc <$> seq 0 (rows A)) + nt <= W -> (forall i, i < rows A -> 2 * Nat.min (bin_work A Bc i) (cols B) <= W) ->
  exists C,
    innerSpGEMM_nohash_ends dflt zero mul add W top nts nt min A Bc M 0 C /\
    (forall C', innerSpGEMM_nohash_ends dflt zero mul add W top nts nt min A Bc M 0 C' -> C' = C) /\
    wf C /\ rows C = rows A /\ cols C = cols B /\
    (forall i, i < rows A -> row_entries C i =
      omap (fun j => match products mul (row_entries A i) (row_entries B) j with
                     | [] => None | ps => Some (j, fold_left add ps zero) end) (row_cols M i)) /\
    ((forall x, add zero x = x) -> forall i, i < rows A -> row_entries C i = spec_row mul add A B M i).
Proof.
  intros V dflt zero mul add W top nts nt min A B M Bc Hco HBc Hsm HsA Hd HsB H0 Hnt HN HrW Hm Hin HW Hf.
  destruct (nohash_ok dflt zero mul add W top nts nt min A B M Bc 0 Hco HBc Hsm HsA Hd HsB H0 Hnt HN HrW Hm Hin HW Hf) as [P U].
  set (C := assemble (dotRow zero mul add A B M) (rows A) (cols B)).
  assert (E : nhOut dflt zero mul add A B M 0 = C) by (unfold nhOut; cbn [replicate]; rewrite !app_nil_r; reflexivity).
  rewrite E in P, U. exists C. split; [exact P|]. split; [exact U|]. split; [|split; [reflexivity|split; [reflexivity|]]].
  - apply assemble_wf. intros i c v Hi Hc. unfold dotRow in Hc. apply elem_of_list_omap in Hc as (j & Hj & Hv).
    destruct (products mul (row_entries A i) (row_entries B) j); [discriminate|]. injection Hv as <- _.
    rewrite <- (co_cols A B M Hco). eapply row_cols_range; [apply (co_M A B M Hco)|exact Hj].
  - split; [intros i Hi; unfold C; rewrite assemble_row by exact Hi; reflexivity|].
    intros Hz i Hi. unfold C. rewrite assemble_row by exact Hi. apply dotRow_spec, Hz.
Qed.
Print Assumptions C47_nohash_partial.

(** The parallel region has no two unordered accesses of one cell, one of them a write. *)
Theorem C47_race_free :
  forall V (zero : V) mul add W nt (A B M : csr V) (Bc : csc V),
  compatible A B M -> wf_csc Bc -> same_matrix B Bc ->
  (forall i, i < rows A -> StronglySorted lt (row_cols A i)) -> distinct_rows B -> sorted_cols Bc -> 1 <= nt -> rows A + nt <= W ->
  race_free (nhMem (colids M) (replicate (nnz M) zero) (replicate (rows M) 0) (replicate nt 0), nhThreads zero mul add W A Bc M nt).
Proof.
  intros V zero mul add W nt A B M Bc Hco HBc Hsm HsA Hd HsB Hnt HrW.
  apply (nohash_region_end zero zero mul add W nt A B M Bc Hco HBc Hsm HsA Hd HsB Hnt HrW 0).
Qed.
Print Assumptions C47_race_free.

(** Finding: BIN.h is given B.colptr where it expects row pointers and indexes it with the columns of A.  One
    entry of A in a column that B does not have (possible as soon as B has more rows than columns) and the call
    reads past the end of B.colptr. *)
Theorem C47_tall_refuted :
  forall V (dflt zero : V) mul add W top nts nt min (A M : csr V) (Bc : csc V) nnz0 i k, wf A -> wf_csc Bc -> i < rows A -> k ∈ row_cols A i -> c_cols Bc <= k ->
  intprodRow (rowptr A) (colids A) (colptr Bc) i = Err OutOfBounds /\
  ~ (exists C, innerSpGEMM_nohash_ends dflt zero mul add W top nts nt min A Bc M nnz0 C).
Proof.
  intros V dflt zero mul add W top nts nt min A M Bc nnz0 i k HA HB Hi Hk Hc. pose proof (intprod_oob A Bc i k HA HB Hi Hk Hc) as E. split; [exact E|].
  intros (C & b & ids & vals & nz & th & (_ & Q & _) & _). revert Q. eapply parfor_err; [exact Hi|exact E].
Qed.
Print Assumptions C47_tall_refuted.

(** A 3 x 1 matrix B times a 1 x 3 matrix A. *)
Definition exAt : csr Z := mkCsr 1 3 1 [0;1] [2] [5]%Z.
Definition exBt : csr Z := mkCsr 3 1 1 [0;0;0;1] [0] [7]%Z.
Definition exBtc : csc Z := mkCsc 3 1 1 [0;1] [2] [7]%Z.
Definition exMt : csr Z := mkCsr 1 1 1 [0;1] [0] [1]%Z.
Example C47_tall_example :
  compatible exAt exBt exMt /\ wf_csc exBtc /\ same_matrix exBt exBtc /\
  spec_row Z.mul Z.add exAt exBt exMt 0 = [(0, 35%Z)] /\
  ~ (exists C, innerSpGEMM_nohash_ends 0%Z 0%Z Z.mul Z.add 1000 255 1 1 8 exAt exBtc exMt 0 C).
Proof.
  assert (HA : wf exAt) by prove_wf. assert (HBc : wf_csc exBtc) by prove_wf.
  split; [constructor; [exact HA|prove_wf|prove_wf|reflexivity..]|]. split; [exact HBc|]. split; [|split; [reflexivity|]].
  - constructor; [reflexivity..|]. intros k j b Hk Hj. cbn in Hk, Hj. assert (j = 0) as -> by lia.
    do 3 (destruct k as [|k]; [cbn; rewrite ?elem_of_list_singleton, ?elem_of_nil; split; intros H; first [contradiction|discriminate|injection H as ->; reflexivity|inversion H]|]). lia.
  - apply (C47_tall_refuted Z 0%Z 0%Z Z.mul Z.add 1000 255 1 1 8 exAt exMt exBtc 0 0 2 HA HBc ltac:(cbn; lia)); [cbn; left|cbn; lia].
Qed.

(** Finding: the sum starts at the number 0, whatever addop is.  Whenever 0 is not neutral for addop, already the
    product of two 1 x 1 matrices comes out wrong (for example with addop = min and multop = +). *)
Theorem C47_zero_refuted :
  forall V (dflt zero : V) mul add a b, add zero (mul a b) <> mul a b ->
  exists (A B M : csr V) (Bc : csc V), compatible A B M /\ wf_csc Bc /\ same_matrix B Bc /\ row_entries A 0 = [(0, a)] /\ row_entries B 0 = [(0, b)] /\
  forall top nts nt, 1 <= nt -> exists C,
    innerSpGEMM_nohash_ends dflt zero mul add (nt + 100) top nts nt 8 A Bc M 0 C /\ row_entries C 0 = [(0, add zero (mul a b))] /\
    spec_row mul add A B M 0 = [(0, mul a b)] /\ row_entries C 0 <> spec_row mul add A B M 0.
Proof.
  intros V dflt zero mul add a b Hne.
  set (A := mkCsr 1 1 1 [0;1] [0] [a]). set (B := mkCsr 1 1 1 [0;1] [0] [b]). set (Bc := mkCsc 1 1 1 [0;1] [0] [b]).
  assert (Hw : forall v : V, wf (mkCsr 1 1 1 [0;1] [0] [v])).
  { intros v. constructor; try reflexivity.
    - intros i x y Hx Hy. destruct i as [|[|i]]; cbn in Hx, Hy; [injection Hx as <-; injection Hy as <-; lia|discriminate|discriminate].
    - intros p c Hp. destruct p as [|p]; cbn in Hp; [injection Hp as <-; cbn; lia|discriminate]. }
  assert (Hco : compatible A B A) by (constructor; [apply Hw|apply Hw|apply Hw|reflexivity..]).
  assert (HBc : wf_csc Bc) by exact (Hw b).
  assert (Hsm : same_matrix B Bc).
  { constructor; [reflexivity..|]. intros k j v Hk Hj. cbn in Hk, Hj. assert (k = 0) as -> by lia. assert (j = 0) as -> by lia. reflexivity. }
  exists A, B, A, Bc. split; [exact Hco|]. split; [exact HBc|]. split; [exact Hsm|]. split; [reflexivity|]. split; [reflexivity|].
  intros top nts nt Hnt.
  destruct (C47_nohash_partial V dflt zero mul add (nt + 100) top nts nt 8 A B A Bc Hco HBc Hsm) as (C & P & _ & _ & _ & _ & HC & _).
  - intros i Hi. cbn in Hi. assert (i = 0) as -> by lia. repeat constructor.
  - intros i Hi. cbn in Hi. assert (i = 0) as -> by lia. repeat constructor. intros H. inversion H.
  - intros j Hj. cbn in Hj. assert (j = 0) as -> by lia. repeat constructor.
  - discriminate.
  - exact Hnt.
  - reflexivity.
  - cbn [A rows]. lia.
  - lia.
  - intros p k Hp. destruct p as [|p]; cbn in Hp; [injection Hp as <-; cbn; lia|discriminate].
  - assert (sum_list (bin_work A Bc <$> seq 0 (rows A)) = 1) as -> by reflexivity. lia.
  - intros i Hi. cbn [B cols]. lia.
  - exists C. split; [exact P|]. specialize (HC 0 ltac:(cbn; lia)).
    assert (E1 : row_entries C 0 = [(0, add zero (mul a b))]) by (rewrite HC; reflexivity).
    assert (E2 : spec_row mul add A B A 0 = [(0, mul a b)]) by reflexivity.
    split; [exact E1|]. split; [exact E2|]. rewrite E1, E2. congruence.
Qed.
Print Assumptions C47_zero_refuted.
Example C47_zero_example : Z.min 0 (Z.add 2 3) <> Z.add 2 3.
Proof. discriminate. Qed.

(** Finding: C_final.nnz is added to, not set.  With a matrix already in C_final the result has too many entries:
    it is not a matrix at all. *)
Theorem C47_old_nnz_refuted :
  forall V (dflt zero : V) mul add W top nts nt min (A B M : csr V) (Bc : csc V) nnz0,
  compatible A B M -> wf_csc Bc -> same_matrix B Bc ->
  (forall i, i < rows A -> StronglySorted lt (row_cols A i)) -> distinct_rows B -> sorted_cols Bc ->
  rows A <> 0 -> 1 <= nt -> (N.of_nat (rows A + 1) < 2 ^ 17)%N -> rows A + nt <= W -> 1 <= min < W ->
  (forall p k, colids A !! p = Some k -> k < cols B) ->
  sum_list (bin_work A Bc <$> seq 0 (rows A)) + nt <= W -> (forall i, i < rows A -> 2 * Nat.min (bin_work A Bc i) (cols B) <= W) ->
  nnz0 <> 0 ->
  (exists C, innerSpGEMM_nohash_ends dflt zero mul add W top nts nt min A Bc M nnz0 C) /\
  (forall C, innerSpGEMM_nohash_ends dflt zero mul add W top nts nt min A Bc M nnz0 C ->
    ~ wf C /\ rowptr C !! rows C = Some (nnz C - nnz0) /\ nnz0 <= nnz C).
Proof.
  intros V dflt zero mul add W top nts nt min A B M Bc nnz0 Hco HBc Hsm HsA Hd HsB H0 Hnt HN HrW Hm Hin HW Hf Hz.
  destruct (nohash_ok dflt zero mul add W top nts nt min A B M Bc nnz0 Hco HBc Hsm HsA Hd HsB H0 Hnt HN HrW Hm Hin HW Hf) as [P U].
  split; [eauto|]. intros C HC. apply U in HC as ->.
  assert (E : rowptr (nhOut dflt zero mul add A B M nnz0) !! rows (nhOut dflt zero mul add A B M nnz0) = Some (nnz (nhOut dflt zero mul add A B M nnz0) - nnz0) /\ nnz0 <= nnz (nhOut dflt zero mul add A B M nnz0)).
  { unfold nhOut. cbn [nnz rows rowptr]. split; [|lia]. rewrite assemble_rowptr by reflexivity. f_equal. cbn [assemble nnz rows]. lia. }
  destruct E as [E1 E2]. split; [|split; assumption]. intros Hw. rewrite (wf_last _ Hw) in E1. injection E1 as E1. lia.
Qed.
Print Assumptions C47_old_nnz_refuted.

(** Finding: from 2^17 - 1 rows on, the prefix sum of BIN.h reads past the end of row_nz. *)
Theorem C47_large_refuted :
  forall V (dflt zero : V) mul add W top nts nt min (A M : csr V) (Bc : csc V) nnz0, wf A -> wf_csc Bc -> cols M = c_cols Bc ->
  (forall p k, colids A !! p = Some k -> k < c_cols Bc) -> (2 ^ 17 <= N.of_nat (rows A + 1))%N -> 1 <= nts <= rows A + 1 ->
  ~ (exists C, innerSpGEMM_nohash_ends dflt zero mul add W top nts nt min A Bc M nnz0 C).
Proof.
  intros V dflt zero mul add W top nts nt min A M Bc nnz0 HA HB Hc Hin HN Hn (C & b & ids & vals & nz & th & Q & _). rewrite Hc in Q. revert Q.
  apply nh_bin_large; assumption.
Qed.
Print Assumptions C47_large_refuted.

(** Finding: BIN's constructor asserts that there are rows. *)
Theorem C47_zero_rows_refuted :
  forall V (dflt zero : V) mul add W top nts nt min (A M : csr V) (Bc : csc V) nnz0, rows A = 0 ->
  ~ (exists C, innerSpGEMM_nohash_ends dflt zero mul add W top nts nt min A Bc M nnz0 C).
Proof. intros V dflt zero mul add W top nts nt min A M Bc nnz0 H0 (C & b & ids & vals & nz & th & (H & _) & _). contradiction. Qed.
Print Assumptions C47_zero_rows_refuted.

(** Finding: all threads store the number of threads to one variable without synchronisation. *)
Theorem C47_numThreads_race_refuted :
  forall nt (m : gmap unit nat), 2 <= nt -> is_Some (m !! tt) -> race (m, nhNumThreads nt) /\ ~ race_free (m, nhNumThreads nt).
Proof. intros nt m Hnt Hm. apply (C38_tnum_race_refuted nt m Hnt Hm). Qed.
Print Assumptions C47_numThreads_race_refuted.

(** Two threads, the second row of A empty, a mask column without a product; addop does not commute. *)
Example C47_example :
  compatible exA exB exM /\ wf_csc exBc /\ same_matrix exB exBc /\ sorted_cols exBc /\
  (exists C, innerSpGEMM_nohash_ends 0%Z 0%Z Z.mul Z.add 64 255 1 2 8 exA exBc exM 0 C /\ C = mkCsr 3 4 3 [0;2;2;3] [0;1;3] [-4;18;-1]%Z) /\
  (exists C, innerSpGEMM_nohash_ends 0%Z 0%Z Z.mul Z.sub 64 255 1 2 8 exA exBc exM 2 C /\ C = mkCsr 3 4 5 [0;2;2;3] [0;1;3;0;0] [4;-18;1;0;0]%Z).
Proof.
  split; [exact ex_compat|]. split; [exact exBc_wf|]. split; [exact exBc_same|]. split; [exact exBc_sorted|].
  assert (H : forall mul add nnz0, innerSpGEMM_nohash_ends 0%Z 0%Z mul add 64 255 1 2 8 exA exBc exM nnz0 (nhOut 0%Z 0%Z mul add exA exB exM nnz0)).
  { intros mul add nnz0. apply (nohash_ok 0%Z 0%Z mul add 64 255 1 2 8 exA exB exM exBc nnz0 ex_compat exBc_wf exBc_same).
    - exact exA_sorted.
    - exact exB_distinct.
    - exact exBc_sorted.
    - discriminate.
    - lia.
    - reflexivity.
    - cbn. lia.
    - lia.
    - intros p k Hp. do 4 (destruct p as [|p]; [cbn in Hp; injection Hp as <-; cbn; lia|]). discriminate.
    - apply (bool_decide_unpack _). vm_compute. exact I.
    - intros i Hi. cbn in Hi. do 3 (destruct i as [|i]; [apply (bool_decide_unpack _); vm_compute; exact I|]). lia. }
  split; eexists; (split; [apply H|]); vm_compute; reflexivity.
Qed.
