(** C45: mxm_hash_mask and mxm_hash_mask_wobin.  Words used: [mxmHashMask_ends], [mxmHashMaskWobin_ends]
    (MaskHashModel: the call always ends, whatever the interleaving, with this matrix); [prod_entry],
    [spec_row], [touched_cols] (Spec); [schedule] (ParModel: any distribution of the rows over threads). *)
From stdpp Require Import numbers.
From Verif Require Import MaskHashModel BaseProofs ComplProofs ScanProofs LegacyScanProofs WorkProofs Assemble TwoPassProofs BinProofs LpProofs SpaProofs MaskHashProofs PropBin PropSpa PropLegacyScan Examples.
From Verif Require Import Base Spec.

(** [C] has, in row [i], every entry of the product at a column of the mask exactly once. *)
Definition holds_masked_product {V} (mul add : V -> V -> V) (A B M C : csr V) : Prop :=
  wf C /\ rows C = rows A /\ cols C = cols B /\
  forall i, i < rows A ->
    NoDup (row_cols C i) /\
    (forall j v, (j, v) ∈ row_entries C i <-> j ∈ row_cols M i /\ prod_entry mul add A B i j = Some v) /\
    (NoDup (row_cols M i) -> row_entries C i ≡ₚ spec_row mul add A B M i).

Lemma masked_assemble {V} (mul add : V -> V -> V) (A B M : csr V) (l : nat -> list nat) : compatible A B M ->
  (forall i, i < rows A -> NoDup (l i) /\ forall j, j ∈ l i <-> j ∈ row_cols M i) ->
  holds_masked_product mul add A B M (assemble (fun i => masked_row mul add (row_entries A i) (row_entries B) (l i)) (rows A) (cols B)).
Proof.
  intros Hco Hl. set (R := fun i => masked_row mul add (row_entries A i) (row_entries B) (l i)).
  assert (Hel : forall i j v, i < rows A -> (j, v) ∈ R i <-> j ∈ row_cols M i /\ prod_entry mul add A B i j = Some v).
  { intros i j v Hi. unfold R. rewrite masked_row_elem. destruct (Hl i Hi) as [_ ->]. reflexivity. }
  assert (Hnd : forall i, i < rows A -> NoDup (fst <$> R i)) by (intros i Hi; apply masked_row_keys_NoDup, Hl, Hi).
  split; [|split; [reflexivity|split; [reflexivity|]]].
  - apply assemble_wf. intros i c v Hi Hin. apply Hel in Hin as [Hin _]; [|exact Hi]. rewrite <- (co_cols A B M Hco). eapply row_cols_range; [apply (co_M A B M Hco)|exact Hin].
  - intros i Hi.
    assert (Erc : row_cols (assemble R (rows A) (cols B)) i = fst <$> R i) by (unfold row_cols; rewrite assemble_row by exact Hi; reflexivity).
    rewrite Erc, assemble_row by exact Hi. split; [apply Hnd, Hi|]. split; [intros j v; apply Hel, Hi|]. intros Hm. apply NoDup_Permutation.
    + eapply NoDup_fmap_1, Hnd, Hi.
    + eapply (NoDup_fmap_1 fst). apply masked_row_keys_NoDup, Hm.
    + intros [j v]. rewrite Hel by exact Hi. unfold spec_row. rewrite masked_row_elem. reflexivity.
Qed.

(** C45, one table per row.  Fewer than 2^17 - 1 rows, mask rows of at most half the index range: for every
    number of threads and every distribution of the rows in either loop, the call ends with one and the same
    matrix, the masked product.  Mask rows may repeat columns; there may be no rows at all. *)
Theorem C45_wobin_partial :
  forall V (dflt : V) mul add w W (A B M : csr V), compatible A B M ->
  (N.of_nat (rows A + 1) < 2 ^ 17)%N -> 16 < W -> (forall i, i < rows A -> 2 * (length (row_cols M i) + 1) <= W) ->
  exists C, holds_masked_product mul add A B M C /\
    forall top nts asg1 asg2, schedule (rows A) asg1 -> schedule (rows A) asg2 ->
      mxmHashMaskWobin_ends dflt mul add w W top nts asg1 asg2 A B M C /\
      forall C', mxmHashMaskWobin_ends dflt mul add w W top nts asg1 asg2 A B M C' -> C' = C.
Proof.
  intros V dflt mul add w W A B M Hco HN H16 Hm.
  exists (assemble (fun i => mhRow mul add w W A B M (mlen M i) i) (rows A) (cols B)). split.
  - apply masked_assemble; [exact Hco|]. intros i Hi. destruct (kkOf_ok W (mlen M i) H16 (Hm i Hi)) as [_ Hk].
    split; [apply slotOrder_NoDup, Hk|intros j; apply slotOrder_elem, Hk].
  - intros top nts asg1 asg2 Hs1 Hs2. destruct (wobin_ok dflt mul add w W top nts asg1 asg2 A B M Hco HN H16 Hm Hs1 Hs2) as (P & U & _). auto.
Qed.
Print Assumptions C45_wobin_partial.

(** C45, one table per thread, rows distributed by BIN.h.  In addition the counts of products must fit the
    index type.  The order of the entries within a row depends on the table and so on the number of threads. *)
Theorem C45_bin_partial :
  forall V (dflt : V) mul add w W top nts nt (A B M : csr V), compatible A B M -> rows A <> 0 -> 1 <= nt ->
  (N.of_nat (rows A + 1) < 2 ^ 17)%N -> 16 < W -> (forall i, i < rows A -> 2 * (length (row_cols M i) + 1) <= W) ->
  let work i := length (touched_cols A B i) in
  sum_list (work <$> seq 0 (rows A)) + nt <= W -> (forall i, i < rows A -> 2 * Nat.min (work i) (cols B) <= W) ->
  exists C, holds_masked_product mul add A B M C /\
    mxmHashMask_ends dflt mul add w W top nts nt A B M C /\
    forall C', mxmHashMask_ends dflt mul add w W top nts nt A B M C' -> C' = C.
Proof.
  intros V dflt mul add w W top nts nt A B M Hco H0 Hnt HN H16 Hm work HW Hf.
  assert (Ew : forall i, nprods A B i = work i) by (intros i; apply nprods_touched).
  assert (El : nprods A B <$> seq 0 (rows A) = work <$> seq 0 (rows A)) by (apply list_fmap_ext; intros _ i _; apply Ew).
  destruct (bin_ok dflt mul add w W top nts nt A B M Hco H0 Hnt HN) as (asg & _ & _ & Hk & P & U).
  { rewrite El. exact HW. } { exact H16. } { intros i Hi. rewrite Ew. apply Hf, Hi. } { exact Hm. }
  eexists. split; [|split; [exact P|exact U]].
  apply masked_assemble; [exact Hco|]. intros i Hi. split; [apply slotOrder_NoDup, Hk, Hi|intros j; apply slotOrder_elem, Hk, Hi].
Qed.
Print Assumptions C45_bin_partial.

(** The two row loops cannot make threads conflict. *)
Theorem C45_race_free :
  forall V (dflt : V) mul add w W (A B M : csr V) asg1 asg2, compatible A B M ->
  (N.of_nat (rows A + 1) < 2 ^ 17)%N -> 16 < W -> (forall i, i < rows A -> 2 * (length (row_cols M i) + 1) <= W) ->
  schedule (rows A) asg1 -> schedule (rows A) asg2 ->
  race_free (symMem (V := V) (replicate (rows A) 0), symThreads (fun _ => Ok tt) (wobinSym w W A B M) asg1) /\
  forall C : csr V, wf C -> rows C = rows A -> (forall i, i < rows A -> length (row_cols C i) = length (spec_row mul add A B M i)) -> distinct_rows M ->
  race_free (numMem (replicate (nnz C) 0) (replicate (nnz C) dflt), numThreads (fun _ => Ok tt) (wobinNum dflt mul add w W A B M) (rowptr C) asg2).
Proof.
  intros V dflt mul add w W A B M asg1 asg2 Hco HN H16 Hm Hs1 Hs2.
  destruct (wobin_ok dflt mul add w W 0 1 asg1 asg2 A B M Hco HN H16 Hm Hs1 Hs2) as (_ & _ & F1 & F2). split; [exact F1|].
  intros C HC Hr Hlen Hd. set (R := fun i => mhRow mul add w W A B M (mlen M i) i) in *.
  assert (HlR : forall i, i < rows A -> length (row_entries C i) = length (R i)).
  { intros i Hi. rewrite <- row_cols_length, (Hlen i Hi). destruct (kkOf_ok W (mlen M i) H16 (Hm i Hi)) as [_ Hk]. apply Permutation_length. symmetry.
    unfold R, mhRow, spec_row, masked_row. apply omap_Permutation.
    rewrite (slotOrder_perm w (kkOf W (mlen M i)) (row_cols M i)); [|pose proof (first_touch_length (row_cols M i)); unfold mlen in Hk at 1; lia].
    rewrite first_touch_NoDup; [reflexivity|]. apply Hd. rewrite (co_rows A B M Hco). exact Hi. }
  assert (Hpre : forall i, i <= rows A -> pre (row_entries C) i = pre R i).
  { induction i as [|i IH]; intros Hi; [reflexivity|]. rewrite !pre_S, IH, HlR by lia. reflexivity. }
  rewrite (wf_assemble C HC). unfold assemble. cbn [nnz rowptr]. rewrite Hr, Hpre by lia.
  replace (pre (row_entries C) <$> seq 0 (rows A + 1)) with (pre R <$> seq 0 (rows A + 1)); [exact F2|].
  apply list_fmap_ext. intros k x Hx. apply lookup_seq in Hx. symmetry. apply Hpre. lia.
Qed.
Print Assumptions C45_race_free.

(** Finding: from 2^17 - 1 rows on, the prefix sum reads past the end of row_nz. *)
Theorem C45_large_refuted :
  forall V (dflt : V) mul add w W top nts nt (A B M : csr V), compatible A B M -> (2 ^ 17 <= N.of_nat (rows A + 1))%N -> 1 <= nts <= rows A + 1 ->
  ~ (exists C, mxmHashMask_ends dflt mul add w W top nts nt A B M C) /\
  (16 < W -> (forall i, i < rows A -> 2 * (length (row_cols M i) + 1) <= W) ->
   forall asg1 asg2, schedule (rows A) asg1 -> schedule (rows A) asg2 -> ~ (exists C, mxmHashMaskWobin_ends dflt mul add w W top nts asg1 asg2 A B M C)).
Proof.
  intros V dflt mul add w W top nts nt A B M Hco HN Hn. split.
  - intros [C H]. revert H. apply bin_large; assumption.
  - intros H16 Hm asg1 asg2 Hs1 Hs2. apply wobin_large; assumption.
Qed.
Print Assumptions C45_large_refuted.

(** Finding: BIN's constructor asserts that there are rows. *)
Theorem C45_zero_rows_refuted :
  forall V (dflt : V) mul add w W top nts nt (A B M : csr V), rows A = 0 -> ~ (exists C, mxmHashMask_ends dflt mul add w W top nts nt A B M C).
Proof. intros V dflt mul add w W top nts nt A B M H0 (C & b & asg & (H & _) & _). contradiction. Qed.
Print Assumptions C45_zero_rows_refuted.

(** Finding: for a mask row of more than half the index range the loop that doubles the table size never ends. *)
Theorem C45_huge_row_refuted :
  forall V mul add (dflt : V) w a (A B M : csr V) i, wf M -> i < rows M -> 4 < a -> 2 ^ (a - 1) < length (row_cols M i) + 1 ->
  (forall fuel, growLoop (2 ^ a) fuel 16 (length (row_cols M i) + 1) = Err OutOfFuel) /\
  wobinSym w (2 ^ a) A B M i tt = Err OutOfFuel /\ wobinNum dflt mul add w (2 ^ a) A B M i tt = Err OutOfFuel.
Proof.
  intros V mul add dflt w a A B M i HM Hi Ha Hlen.
  assert (Hg : forall fuel, growLoop (2 ^ a) fuel 16 (length (row_cols M i) + 1) = Err OutOfFuel) 
    by (intros fuel; pose proof (growLoop_diverges a _ fuel 4 Hlen) as Hg; rewrite Nat.mod_small in Hg by (apply Nat.pow_lt_mono_r; lia); exact Hg).
  split; [exact Hg|]. unfold wobinSym, wobinNum. rewrite !mhRowSize_ok, !bind_Ok by assumption. unfold mapS_new, mapN_new, mapSize, mlen. rewrite !Hg. split; reflexivity.
Qed.
Print Assumptions C45_huge_row_refuted.

(** Finding: all threads store the number of threads to one variable without synchronisation. *)
Theorem C45_numThreads_race_refuted :
  forall nt (m : gmap unit nat), 2 <= nt -> is_Some (m !! tt) -> race (m, numThreadsPhase nt) /\ ~ race_free (m, numThreadsPhase nt).
Proof. intros nt m Hnt Hm. apply (C38_tnum_race_refuted nt m Hnt Hm). Qed.
Print Assumptions C45_numThreads_race_refuted.

(** Columns 3 and 19 of the mask have the same home slot; the mask row 2 repeats column 19; addop is not
    commutative.  The rows come out in slot order: with one thread the table for row 0 has 32 slots (another
    row has 16 mask columns), with a table per row it has 16. *)
Definition exBh : csr Z := mkCsr 3 20 6 [0;2;3;6] [19;3;1;3;1;19] [4;1;7;-2;6;1]%Z.
Definition exMh : csr Z := mkCsr 3 20 21 [0;3;19;21] [19;1;3; 0;1;2;3;4;5;6;7;8;9;10;11;12;13;14;15; 19;19] (replicate 21 1%Z).
Lemma exBh_wf : wf exBh. Proof. prove_wf. Qed.
Lemma exMh_wf : wf exMh.
Proof.
  constructor; try reflexivity.
  - intros i a b Ha Hb. do 4 (destruct i as [|i]; [cbn in Ha, Hb; injection Ha as <-; try (injection Hb as <-; lia); discriminate|]). discriminate.
  - intros p c Hp. do 21 (destruct p as [|p]; [cbn in Hp; injection Hp as <-; cbn; lia|]). discriminate.
Qed.
Example C45_example :
  hslot 32 16 3 = hslot 32 16 19 /\
  (exists C, mxmHashMask_ends 0%Z Z.mul Z.sub 32 64 255 1 1 exA exBh exMh C /\
    C = mkCsr 3 20 4 [0; 3; 3; 4] [3; 1; 19; 19] [8; 18; 5; -1]%Z) /\
  (exists C, mxmHashMaskWobin_ends 0%Z Z.mul Z.sub 32 64 255 1 [[2]; [0; 1]] [[1]; []; [2; 0]] exA exBh exMh C /\
    C = mkCsr 3 20 4 [0; 3; 3; 4] [19; 3; 1; 19] [5; 8; 18; -1]%Z).
Proof.
  assert (Hco : compatible exA exBh exMh) by (constructor; first [exact exA_wf|exact exBh_wf|exact exMh_wf|reflexivity]).
  assert (Hm : forall i, i < rows exA -> 2 * (mlen exMh i + 1) <= 64).
  { intros i Hi. cbn in Hi. do 3 (destruct i as [|i]; [apply (bool_decide_unpack _); vm_compute; exact I|]). lia. }
  split; [reflexivity|]. split.
  - destruct (bin_ok 0%Z Z.mul Z.sub 32 64 255 1 1 exA exBh exMh Hco ltac:(discriminate) ltac:(lia) eq_refl) as (asg & Hs & Hl & _ & P & _).
    + apply (bool_decide_unpack _). vm_compute. exact I.
    + lia.
    + intros i Hi. cbn in Hi. do 3 (destruct i as [|i]; [apply (bool_decide_unpack _); vm_compute; exact I|]). lia.
    + exact Hm.
    + eexists. split; [exact P|]. destruct asg as [|its [|? ?]]; try discriminate Hl. clear P.
      match goal with |- assemble ?R _ _ = _ => assert (E : assemble R (rows exA) (cols exBh) = assemble (fun i => mhRow Z.mul Z.sub 32 64 exA exBh exMh (mxOf 64 exA exBh exMh 1 0) i) (rows exA) (cols exBh)) end.
      { assert (H0 : forall i, threadOf [its] i = 0).
        { intros i. unfold threadOf. cbn [list_find]. destruct (decide (i ∈ its)); reflexivity. }
        unfold mxRow. apply assemble_ext. intros i _. rewrite H0. reflexivity. }
      rewrite E. vm_compute. reflexivity.
  - destruct (wobin_ok 0%Z Z.mul Z.sub 32 64 255 1 [[2]; [0; 1]] [[1]; []; [2; 0]] exA exBh exMh Hco eq_refl ltac:(lia) Hm) as (P & _).
    + apply NoDup_Permutation; [apply (bool_decide_unpack _); vm_compute; exact I..|]. intros x. cbn. rewrite !elem_of_cons, elem_of_nil. lia.
    + apply NoDup_Permutation; [apply (bool_decide_unpack _); vm_compute; exact I..|]. intros x. cbn. rewrite !elem_of_cons, elem_of_nil. lia.
    + eexists. split; [exact P|]. vm_compute. reflexivity.
Qed.
