(** C44: MaskedSPASpGEMM.  Words used: [spaSpGEMM_ends] (SpaModel: the call always ends, whatever the
    interleaving, with this matrix); [products], [first_touch], [touched_cols], [masked_row], [spec_row] (Spec). *)
From stdpp Require Import numbers.
From Verif Require Import SpaModel BaseProofs ComplProofs ScanProofs LegacyScanProofs WorkProofs Assemble TwoPassProofs BinProofs SpaProofs PropBin Examples.
From Verif Require Import Base Spec.

Section Comm.
Context {V : Type} (mul add : V -> V -> V).
Lemma sum1_flip (Hc : forall x y, add x y = add y x) l : sum1 (fun s x => add x s) l = sum1 add l.
Proof.
  destruct l as [|x l]; [reflexivity|]. simpl. f_equal. revert x. induction l as [|y l IH]; intros x; [reflexivity|]. simpl. rewrite (Hc y x). apply IH.
Qed.
Lemma masked_row_flip (Hc : forall x y, add x y = add y x) arow brow l :
  masked_row mul (fun s x => add x s) arow brow l = masked_row mul add arow brow l.
Proof.
  induction l as [|j l IH]; [reflexivity|]. unfold masked_row, entry in *. cbn [omap list_omap]. rewrite (sum1_flip Hc).
  destruct (sum1 add (products mul arow brow j)); simpl; [f_equal|]; exact IH.
Qed.
Lemma masked_row_elem add1 (A B : csr V) i l j v :
  (j, v) ∈ masked_row mul add1 (row_entries A i) (row_entries B) l <-> j ∈ l /\ entry mul add1 (row_entries A i) (row_entries B) j = Some v.
Proof. rewrite <- mrow_masked, mrow_elem, colval_entry. reflexivity. Qed.
Lemma masked_row_keys_NoDup add1 (A B : csr V) i l : NoDup l -> NoDup (fst <$> masked_row mul add1 (row_entries A i) (row_entries B) l).
Proof.
  induction l as [|c l IH]; intros Hl; [constructor|]. apply NoDup_cons in Hl as [Hc Hl]. rewrite <- mrow_masked, mrow_cons, mrow_masked.
  destruct (BaseProofs.colval mul add1 (row_prods A B i) c); [|apply IH, Hl]. rewrite fmap_cons. apply NoDup_cons. split; [|apply IH, Hl].
  intros H. apply elem_of_list_fmap in H as ([j v'] & E & H). simpl in E. subst j. apply masked_row_elem in H as [H _]. contradiction.
Qed.
Lemma entry_touched add1 (A B : csr V) i j v : entry mul add1 (row_entries A i) (row_entries B) j = Some v -> j ∈ touched_cols A B i.
Proof.
  rewrite <- colval_entry. intros E. destruct (decide (j ∈ touched_cols A B i)) as [H|H]; [exact H|].
  rewrite <- row_prods_cols in H. apply (colval_None mul add1) in H. congruence.
Qed.
End Comm.

(** C44.  Fewer than 2^17 - 1 rows, counts that fit the index type: MaskedSPASpGEMM always ends, for every number of
    threads, with one and the same matrix.  A row holds each column of the mask row that has a product exactly
    once (also if the mask row repeats it), in the order of the first product, with the sum of its products in
    storage order, each new product on the left of addop.  If addop is commutative and the mask row does not repeat
    columns, this is the masked product up to the order within the row. *)
Theorem C44_spa_partial :
  forall V (dflt : V) mul add W top nts nt (A B M : csr V), compatible A B M -> rows A <> 0 -> 1 <= nt ->
  (N.of_nat (rows A + 1) < 2 ^ 17)%N ->
  let work i := length (touched_cols A B i) in
  sum_list (work <$> seq 0 (rows A)) + nt <= W -> 8 < W ->
  (forall i, i < rows A -> 2 * Nat.min (work i) (cols B) <= W) ->
  exists C,
    spaSpGEMM_ends dflt mul add W top nts nt A B M C /\
    (forall C', spaSpGEMM_ends dflt mul add W top nts nt A B M C' -> C' = C) /\
    wf C /\ rows C = rows A /\ cols C = cols B /\
    forall i, i < rows A ->
      row_cols C i = filter (fun j => j ∈ row_cols M i) (first_touch (touched_cols A B i)) /\
      NoDup (row_cols C i) /\
      (forall j v, (j, v) ∈ row_entries C i <->
         j ∈ row_cols M i /\ sum1 (fun s x => add x s) (products mul (row_entries A i) (row_entries B) j) = Some v) /\
      ((forall x y, add x y = add y x) -> NoDup (row_cols M i) -> row_entries C i ≡ₚ spec_row mul add A B M i).
Proof.
  intros V dflt mul add W top nts nt A B M Hco H0 Hnt HN work HW H8 Hf.
  assert (Ew : forall i, nprods A B i = work i) by (intros i; apply nprods_touched).
  assert (El : nprods A B <$> seq 0 (rows A) = work <$> seq 0 (rows A)) by (apply list_fmap_ext; intros _ i _; apply Ew).
  destruct (spaSpGEMM_ok dflt mul add W top nts nt A B M Hco H0 Hnt HN) as [P U].
  { rewrite El. exact HW. } { exact H8. } { intros i Hi. rewrite Ew. apply Hf, Hi. }
  exists (assemble (spaRow mul add A B M) (rows A) (cols B)). split; [exact P|]. split; [exact U|].
  assert (Hel : forall i j v, (j, v) ∈ spaRow mul add A B M i <->
         j ∈ row_cols M i /\ sum1 (fun s x => add x s) (products mul (row_entries A i) (row_entries B) j) = Some v).
  { intros i j v. unfold spaRow. rewrite masked_row_elem, elem_touched_allowed. unfold entry. split; [tauto|].
    intros [Hm E]. split; [|exact E]. split; [exact Hm|]. eapply entry_touched, E. }
  assert (Hnd : forall i, NoDup (fst <$> spaRow mul add A B M i)).
  { intros i. apply masked_row_keys_NoDup, NoDup_filter, NoDup_first_touch. }
  split; [|split; [reflexivity|split; [reflexivity|]]].
  - apply assemble_wf. intros i c v Hi Hin. apply Hel in Hin as [Hin _]. rewrite <- (co_cols A B M Hco). eapply row_cols_range; [apply (co_M A B M Hco)|exact Hin].
  - intros i Hi.
    assert (Erc : row_cols (assemble (spaRow mul add A B M) (rows A) (cols B)) i = fst <$> spaRow mul add A B M i) by (unfold row_cols; rewrite assemble_row by exact Hi; reflexivity).
    rewrite Erc, assemble_row by exact Hi. split; [|split; [apply Hnd|split; [apply Hel|]]].
    + unfold spaRow. rewrite <- mrow_masked, mrow_cols; [reflexivity|]. intros j Hj. apply elem_touched_allowed in Hj as [_ Hj].
      rewrite row_prods_cols. exact Hj.
    + intros Hc Hm. apply NoDup_Permutation.
      * eapply NoDup_fmap_1, Hnd.
      * eapply (NoDup_fmap_1 fst). apply masked_row_keys_NoDup, Hm.
      * intros [j v]. rewrite Hel. unfold spec_row. rewrite masked_row_elem. unfold entry. rewrite sum1_flip by exact Hc. reflexivity.
Qed.
Print Assumptions C44_spa_partial.

(** Neither of the two parallel regions can make threads conflict. *)
Theorem C44_race_free :
  forall V (dflt : V) mul add (A B M : csr V) asg, compatible A B M -> schedule (rows A) asg ->
  (N.of_nat (rows A + 1) < 2 ^ 17)%N ->
  race_free (symMem (V := V) (replicate (rows A) 0), symThreads (fun _ => Ok (spaS_new (cols B))) (spaSym A B M) asg) /\
  forall C : csr V, wf C -> rows C = rows A -> (forall i, i < rows A -> row_cols C i = filter (fun j => j ∈ row_cols M i) (first_touch (touched_cols A B i))) ->
  race_free (numMem (replicate (nnz C) 0) (replicate (nnz C) dflt),
    numThreads (fun _ => Ok (spa_new dflt (cols B))) (spaNum mul add A B M) (rowptr C) asg).
Proof.
  intros V dflt mul add A B M asg Hco Hs HN.
  destruct (two_pass dflt 0 (rows A) (cols B) 1 (spaRow mul add A B M) (fun _ => Ok (spaS_new (cols B))) (spaSym A B M) asg (fun _ => cleanS (cols B))
    (fun _ => Ok (spa_new dflt (cols B))) (fun _ => spaNum mul add A B M) asg (fun _ => clean (cols B)) Hs Hs) with (nz0 := replicate (rows A) 0) as (_ & _ & F1 & F2).
  - intros t its _. eexists. split; [reflexivity|]. split; [reflexivity|]. split; [apply flagsOk_new|reflexivity].
  - intros t its i s Ht Hi Hcs. unfold spaRow. rewrite spaRow_length. apply spaSym_ok; auto. eapply asg_lt; eassumption.
  - intros t its _. eexists. split; [reflexivity|]. split; [apply replicate_length|]. split; [apply flagsOk_new|split; reflexivity].
  - intros t its i s Ht Hi Hcs. apply spaNum_ok; auto. eapply asg_lt; eassumption.
  - apply replicate_length.
  - exact HN.
  - split; [exact F1|]. intros C HC Hr Hrow. rewrite (wf_assemble C HC). 
    assert (Hlen : forall i, i < rows A -> length (row_entries C i) = length (spaRow mul add A B M i)).
    { intros i Hi. rewrite <- row_cols_length, (Hrow i Hi). unfold spaRow. rewrite spaRow_length, row_prods_cols. reflexivity. }
    assert (Hpre : forall i, i <= rows A -> pre (row_entries C) i = pre (spaRow mul add A B M) i).
    { induction i as [|i IH]; intros Hi; [reflexivity|]. rewrite !pre_S, IH, Hlen by lia. reflexivity. }
    unfold assemble. cbn [nnz rowptr]. rewrite Hr, Hpre by lia.
    replace (pre (row_entries C) <$> seq 0 (rows A + 1)) with (pre (spaRow mul add A B M) <$> seq 0 (rows A + 1)); [exact F2|].
    apply list_fmap_ext. intros k x Hx. apply lookup_seq in Hx. symmetry. apply Hpre. lia.
Qed.
Print Assumptions C44_race_free.

(** Finding: from 2^17 - 1 rows on, BIN's prefix sum reads past the end of row_nz. *)
Theorem C44_large_refuted :
  forall V (dflt : V) mul add W top nts nt (A B M : csr V), compatible A B M -> (2 ^ 17 <= N.of_nat (rows A + 1))%N -> 1 <= nts <= rows A + 1 ->
  ~ (exists C, spaSpGEMM_ends dflt mul add W top nts nt A B M C).
Proof. intros V dflt mul add W top nts nt A B M Hco HN Hn [C H]. revert H. apply spaSpGEMM_large; assumption. Qed.
Print Assumptions C44_large_refuted.

(** Finding: BIN's constructor asserts that there are rows. *)
Theorem C44_zero_rows_refuted :
  forall V (dflt : V) mul add W top nts nt (A B M : csr V), rows A = 0 -> ~ (exists C, spaSpGEMM_ends dflt mul add W top nts nt A B M C).
Proof. intros V dflt mul add W top nts nt A B M H0 (C & b & asg & (H & _) & _). contradiction. Qed.
Print Assumptions C44_zero_rows_refuted.

(** Two threads; addop not commutative; columns 3 and 0 of row 0 in the order of their first products, the mask
    row 2 repeating column 3. *)
Definition exBs : csr Z := mkCsr 3 4 6 [0;2;3;6] [3;0;1;0;1;3] [4;1;7;-2;6;1]%Z.
Definition exMs : csr Z := mkCsr 3 4 7 [0;3;5;7] [0;1;3;1;3;3;3] [1;1;1;1;1;1;1]%Z.
Lemma exBs_wf : wf exBs. Proof. prove_wf. Qed.
Lemma exMs_wf : wf exMs. Proof. prove_wf. Qed.
Example C44_example :
  exists C, spaSpGEMM_ends 0%Z Z.mul Z.sub 64 255 1 2 exA exBs exMs C /\
    C = mkCsr 3 4 4 [0; 3; 3; 4] [3; 0; 1; 3] [-5; -8; 18; -1]%Z.
Proof.
  assert (Hco : compatible exA exBs exMs) by (constructor; first [exact exA_wf|exact exBs_wf|exact exMs_wf|reflexivity]).
  destruct (spaSpGEMM_ok 0%Z Z.mul Z.sub 64 255 1 2 exA exBs exMs Hco ltac:(discriminate) ltac:(lia) eq_refl) as [P _].
  - apply (bool_decide_unpack _). vm_compute. exact I.
  - lia.
  - intros i Hi. cbn in Hi. do 3 (destruct i as [|i]; [apply (bool_decide_unpack _); vm_compute; exact I|]). lia.
  - eexists. split; [exact P|]. vm_compute. reflexivity.
Qed.
