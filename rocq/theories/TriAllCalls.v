(** The masked products that main of TriCntAll.cpp runs, and what their sums are. *)
From Coq Require Import NArith ZArith.
From stdpp Require Import numbers list_numbers gmap.
From Verif Require Import BaseProofs McaProofs MsaModel HashModel HeapModel AlgModel InnerDriverModel InnerDriverStatements SpaModel MaskHashModel NohashModel
  DriverModel DriverStatements Assemble MatSpec MatStatements GraphSpec GraphModel GraphProofs GraphCalls TriProofs IndexModel
  PropInnerDriver PropSpa PropMaskHash PropNohash PropIndex TriAllModel TriAllSpec TriAllProofs.
From Verif Require Import Base Spec.

(** The calls f(A_csr, B, C, A_csr) of main with B = A_csr or A_csc: TriCntAll.cpp 297-373.  The sizes are
    those for which C05-C16 and C44-C47 describe the routines, for matrices with [n] rows and columns.
    innerSpGEMM_nohash (298), MaskedSPASpGEMM (306) and mxm_hash_mask (320, 321) are run by [nt] threads. *)
Inductive triCall (n : nat) : (csr Z -> csc Z -> csr Z -> Prop) -> Prop :=
| tc_msa1 two sz : (0 < sz)%N -> ((N.of_nat n + 1) * (sz + 1) + 8 < 2 ^ 64)%N -> triCall n (fun T _ C => yields1p (msaAlg mul64 add64 two sz) T T T C)
| tc_msa2 two sz : (0 < sz)%N -> ((N.of_nat n + 1) * (sz + 1) + 8 < 2 ^ 64)%N -> triCall n (fun T _ C => yields2p (msaAlg mul64 add64 two sz) T T T C)
| tc_mca1 sz : (0 < sz)%N -> ((N.of_nat n + 1) * sz + 8 < 2 ^ 64)%N -> triCall n (fun T _ C => yields1p (mcaAlg mul64 add64 sz) T T T C)
| tc_mca2 sz : (0 < sz)%N -> ((N.of_nat n + 1) * sz + 8 < 2 ^ 64)%N -> triCall n (fun T _ C => yields2p (mcaAlg mul64 add64 sz) T T T C)
| tc_hash1 w sK sN : (0 < sK)%N -> (0 < sN)%N -> fits w n -> ((8 * (N.of_nat n + 2) + 1) * N.max sK sN < 2 ^ 64)%N -> (N.lcm sK sN + 8 < 2 ^ 64)%N ->
    triCall n (fun T _ C => yields1p (hashAlg mul64 add64 w sK sN) T T T C)
| tc_hash2 w sK sN : (0 < sK)%N -> (0 < sN)%N -> fits w n -> ((8 * (N.of_nat n + 2) + 1) * N.max sK sN < 2 ^ 64)%N -> (N.lcm sK sN + 8 < 2 ^ 64)%N ->
    triCall n (fun T _ C => yields2p (hashAlg mul64 add64 w sK sN) T T T C)
| tc_heap1 itmax insp sz : (0 < sz)%N -> n <= itmax -> (insp < 2 \/ insp = 2 ^ 64 - 1 \/ N.of_nat (n * n) + insp < 2 ^ 64)%N ->
    ((N.of_nat n + 1) * sz + 8 < 2 ^ 64)%N -> triCall n (fun T _ C => yields1p (heapAlg mul64 add64 itmax insp sz) T T T C)
| tc_heap2 itmax insp sz : (0 < sz)%N -> n <= itmax -> (insp < 2 \/ insp = 2 ^ 64 - 1 \/ N.of_nat (n * n) + insp < 2 ^ 64)%N ->
    ((N.of_nat n + 1) * sz + 8 < 2 ^ 64)%N -> triCall n (fun T _ C => yields2p (heapAlg mul64 add64 itmax insp sz) T T T C)
| tc_inner1 : triCall n (fun T Tc C => yieldsI1p mul64 add64 T Tc T C)
| tc_inner2 : triCall n (fun T Tc C => yieldsI2p mul64 add64 T Tc T C)
| tc_nohash W top nts nt min : 1 <= nt -> (N.of_nat (n + 1) < 2 ^ 17)%N -> n + nt <= W -> 1 <= min < W -> n * n * n + nt <= W -> 2 * n <= W ->
    triCall n (fun T Tc C => innerSpGEMM_nohash_ends 0%Z 0%Z mul64 add64 W top nts nt min T Tc T 0 C)
| tc_spa W top nts nt : 1 <= nt -> (N.of_nat (n + 1) < 2 ^ 17)%N -> 8 < W -> n * n * n + nt <= W -> 2 * n <= W ->
    triCall n (fun T _ C => spaSpGEMM_ends 0%Z mul64 add64 W top nts nt T T T C)
| tc_hashMask w W top nts nt : 1 <= nt -> (N.of_nat (n + 1) < 2 ^ 17)%N -> 16 < W -> n * n * n + nt <= W -> 2 * (n + 1) <= W ->
    triCall n (fun T _ C => mxmHashMask_ends 0%Z mul64 add64 w W top nts nt T T T C)
| tc_wobin w W top nts asg1 asg2 : schedule n asg1 -> schedule n asg2 -> (N.of_nat (n + 1) < 2 ^ 17)%N -> 16 < W -> 2 * (n + 1) <= W ->
    triCall n (fun T _ C => mxmHashMaskWobin_ends 0%Z mul64 add64 w W top nts asg1 asg2 T T T C).

Lemma mul64_range a b : add64 0 (mul64 a b) = mul64 a b.
Proof. unfold add64, mul64. rewrite Z.add_0_l. apply Z.mod_mod. lia. Qed.
Lemma add64_comm a b : add64 a b = add64 b a.
Proof. unfold add64. f_equal. lia. Qed.
Lemma add64_assoc a b c : add64 a (add64 b c) = add64 (add64 a b) c.
Proof. unfold add64. rewrite Z.add_mod_idemp_l, Z.add_mod_idemp_r by lia. f_equal. lia. Qed.

(** ** Sizes *)
Lemma sum_bound (f : nat -> nat) b l : (forall x, x ∈ l -> f x <= b) -> sum_list (f <$> l) <= length l * b.
Proof.
  induction l as [|x l IH]; intros H; [simpl; lia|]. rewrite fmap_cons. change (sum_list (f x :: (f <$> l))) with (f x + sum_list (f <$> l)).
  pose proof (H x ltac:(left)). pose proof (IH ltac:(intros y Hy; apply H; right; exact Hy)). simpl. lia.
Qed.
Lemma touched_bound {V} n (T : csr V) i : good n T -> i < n -> length (touched_cols T T i) <= n * n.
Proof.
  intros HG Hi. unfold touched_cols.
  assert (H : forall l : list (nat * V), (forall e, e ∈ l -> fst e < n) -> length (mjoin ((fun ka => row_cols T (fst ka)) <$> l)) <= length l * n).
  { induction l as [|e l IH]; intros H; [simpl; lia|]. rewrite fmap_cons, mjoin_cons, app_length.
    pose proof (good_row_len n T (fst e) HG (H e ltac:(left))). pose proof (IH ltac:(intros x Hx; apply H; right; exact Hx)). simpl. lia. }
  pose proof (good_row_len n T i HG Hi) as Hl. rewrite row_cols_length in Hl. etransitivity; [apply H|].
  - intros [c v] Hin. apply (good_col n T i c HG Hi). apply elem_of_list_fmap. exists (c, v). auto.
  - apply Nat.mul_le_mono_r, Hl.
Qed.
Lemma touched_sum {V} n (T : csr V) : good n T -> sum_list ((fun i => length (touched_cols T T i)) <$> seq 0 n) <= n * n * n.
Proof.
  intros HG. etransitivity; [apply (sum_bound _ (n * n))|rewrite seq_length; lia]. intros i Hi. apply elem_of_seq in Hi. apply touched_bound; [exact HG|lia].
Qed.
Lemma colT_len {V} n (T : csr V) (Tc : csc V) k : good n T -> wf_csc Tc -> same_matrix T Tc -> sorted_cols Tc -> k < n -> length (col_entries Tc k) <= n.
Proof.
  intros (_ & _ & Hr & Hc) Hw [Sr Sc _] Hs Hk. specialize (Hs k ltac:(lia)). rewrite <- (fmap_length fst).
  pose proof (seq_length n 0) as Hsl. rewrite <- Hsl. clear Hsl. apply submseteq_length, NoDup_submseteq; [apply SSorted_NoDup, Hs|].
  intros w Hin. apply elem_of_list_fmap in Hin as ([w' v] & -> & Hin). apply elem_of_seq. pose proof (col_range Tc w' k v Hw Hin). simpl. lia.
Qed.
Lemma work_bound {V} n (T : csr V) (Tc : csc V) i : good n T -> wf_csc Tc -> same_matrix T Tc -> sorted_cols Tc -> i < n -> bin_work T Tc i <= n * n.
Proof.
  intros HG Hw Hsm Hs Hi. unfold bin_work. etransitivity; [apply (sum_bound _ n)|].
  - intros k Hk. apply (colT_len n T Tc); auto. eapply good_col; eauto.
  - apply Nat.mul_le_mono_r. eapply good_row_len; eauto.
Qed.

Lemma yieldsI1p_unique' mul add (T : csr Z) Tc C C' : yieldsI1p mul add T Tc T C -> yieldsI1p mul add T Tc T C' -> C = C'.
Proof.
  intros H H'. apply (insert_inj (st3c T Tc) 2). apply (inner1p_unique mul add 0 1 0 2 1 (st3c T Tc)); [apply H|apply H']; auto; lia.
Qed.
Lemma yieldsI2p_unique' mul add (T : csr Z) Tc C C' : yieldsI2p mul add T Tc T C -> yieldsI2p mul add T Tc T C' -> C = C'.
Proof.
  intros H H'. apply (insert_inj (st3c T Tc) 2). apply (inner2p_unique mul add 0 1 0 2 1 (st3c T Tc)); [apply H|apply H']; auto; lia.
Qed.

(** The masked product, its rows possibly rearranged. *)
Definition isProduct64 (T C : csr Z) : Prop :=
  wf C /\ rows C = rows T /\ cols C = cols T /\ forall i, i < rows T -> row_entries C i ≡ₚ spec_row mul64 add64 T T T i.
Lemma call_ok n mxm : triCall n mxm -> 1 <= n -> forall T Tc, good n T -> wf_csc Tc -> same_matrix T Tc -> sorted_cols Tc ->
  (exists C, mxm T Tc C) /\ forall C, mxm T Tc C -> isProduct64 T C.
Proof.
  intros HL Hn T Tc HG W1 W2 W3. pose proof HG as (Hw & Hs & Hr & Hc). pose proof (good_compat n T HG) as HC.
  assert (Hl : forall i, i < rows T -> length (row_cols T i) <= n) by (intros i Hi; eapply good_row_len; [exact HG|lia]).
  assert (Hd : distinct_rows T) by (intros i Hi; apply SSorted_NoDup, Hs, Hi).
  destruct (agree mul64 add64 T T T HC Hs Hs ltac:(lia)) as (C & HP & H1 & H2 & H3 & H4). rewrite ?Hc in *.
  specialize (H4 add64_comm add64_assoc).
  assert (HQ : isProduct64 T C).
  { destruct HP as (P1 & P2 & P3 & P4). split; [exact P1|]. split; [exact P2|]. split; [exact P3|]. intros i Hi. rewrite (P4 i Hi). reflexivity. }
  destruct (C09_C10_inner Z mul64 add64 T T T Tc HC W1 W2 Hs Hd W3 ltac:(lia)) as (C' & HP' & HI). rewrite <- (product_unique T T C C' _ HP HP') in HI.
  assert (Hts : forall W nt, n * n * n + nt <= W -> sum_list ((fun i => length (touched_cols T T i)) <$> seq 0 (rows T)) + nt <= W)
    by (intros W nt HW; rewrite Hr; pose proof (touched_sum n T HG); lia).
  assert (Htm : forall W, 2 * n <= W -> forall i, i < rows T -> 2 * Nat.min (length (touched_cols T T i)) (cols T) <= W) by (intros W HW i Hi; lia).
  destruct HL as [two sz X1 X2|two sz X1 X2|sz X1 X2|sz X1 X2|w sK sN X1 X2 X3 X4 X5|w sK sN X1 X2 X3 X4 X5|itmax insp sz X1 X2 X3 X4|itmax insp sz X1 X2 X3 X4| |
    |W top nts nt min X1 X2 X3 X4 X5 X6|W top nts nt X1 X2 X3 X4 X5|w W top nts nt X1 X2 X3 X4 X5|w W top nts asg1 asg2 X1 X2 X3 X4 X5].
  - destruct (H1 two sz X1 X2) as [Y _]. split; [exists C; exact Y|]. intros D Y'. rewrite (yields1p_unique _ T D C Y' Y). exact HQ.
  - destruct (H1 two sz X1 X2) as [_ Y]. split; [exists C; exact Y|]. intros D Y'. rewrite (yields2p_unique _ T D C Y' Y). exact HQ.
  - destruct (H2 sz n X1 Hl X2) as [Y _]. split; [exists C; exact Y|]. intros D Y'. rewrite (yields1p_unique _ T D C Y' Y). exact HQ.
  - destruct (H2 sz n X1 Hl X2) as [_ Y]. split; [exists C; exact Y|]. intros D Y'. rewrite (yields2p_unique _ T D C Y' Y). exact HQ.
  - destruct (H3 w sK sN n X1 X2 Hl X3 X4 X5) as [Y _]. split; [exists C; exact Y|]. intros D Y'. rewrite (yields1p_unique _ T D C Y' Y). exact HQ.
  - destruct (H3 w sK sN n X1 X2 Hl X3 X4 X5) as [_ Y]. split; [exists C; exact Y|]. intros D Y'. rewrite (yields2p_unique _ T D C Y' Y). exact HQ.
  - assert (X3' : (insp < 2 \/ insp = 2 ^ 64 - 1 \/ N.of_nat (nnz T) + insp < 2 ^ 64)%N) by (pose proof (good_nnz n T HG); lia).
    destruct (H4 itmax insp sz n X1 X2 X3' Hl X4) as [Y _]. split; [exists C; exact Y|]. intros D Y'. rewrite (yields1p_unique _ T D C Y' Y). exact HQ.
  - assert (X3' : (insp < 2 \/ insp = 2 ^ 64 - 1 \/ N.of_nat (nnz T) + insp < 2 ^ 64)%N) by (pose proof (good_nnz n T HG); lia).
    destruct (H4 itmax insp sz n X1 X2 X3' Hl X4) as [_ Y]. split; [exists C; exact Y|]. intros D Y'. rewrite (yields2p_unique _ T D C Y' Y). exact HQ.
  - destruct HI as [Y _]. split; [exists C; exact Y|]. intros D Y'. rewrite (yieldsI1p_unique' _ _ T Tc D C Y' Y). exact HQ.
  - destruct HI as [_ Y]. split; [exists C; exact Y|]. intros D Y'. rewrite (yieldsI2p_unique' _ _ T Tc D C Y' Y). exact HQ.
  - destruct (C47_nohash_partial Z 0%Z 0%Z mul64 add64 W top nts nt min T T T Tc) as (D & Y & U & P1 & P2 & P3 & P4 & _); try assumption; try lia.
    + intros p k Hp. apply (wf_range _ Hw) in Hp. exact Hp.
    + rewrite Hr. enough (sum_list (bin_work T Tc <$> seq 0 n) <= n * n * n) by lia. etransitivity; [apply (sum_bound _ (n * n))|rewrite seq_length; lia].
      intros i Hi. apply elem_of_seq in Hi. apply work_bound; auto. lia.
    + split; [exists D; exact Y|]. intros D' Y'. rewrite (U D' Y'). split; [exact P1|]. split; [exact P2|]. split; [exact P3|]. intros i Hi. rewrite (P4 i Hi).
      match goal with |- ?a ≡ₚ ?b => enough (E0 : a = b) by (rewrite E0; reflexivity) end.
      unfold spec_row, masked_row. generalize (row_cols T i). intros l0. induction l0 as [|j l0 IH]; [reflexivity|]. cbn [omap list_omap].
      match goal with |- match ?a with _ => _ end = match ?b with _ => _ end => enough (E0 : a = b) by (rewrite E0; destruct b; [f_equal|]; exact IH) end.
      unfold entry. destruct (products mul64 (row_entries T i) (row_entries T) j) as [|x xs] eqn:E; [reflexivity|]. simpl. do 3 f_equal.
      assert (Hx : x ∈ products mul64 (row_entries T i) (row_entries T) j) by (rewrite E; left).
      unfold products in Hx. apply elem_of_list_join in Hx as (l & Hx & Hl'). apply elem_of_list_fmap in Hl' as (ka & -> & _). apply elem_of_list_fmap in Hx as (cb & -> & _).
      apply mul64_range.
  - destruct (C44_spa_partial Z 0%Z mul64 add64 W top nts nt T T T HC) as (D & Y & U & P1 & P2 & P3 & P4); try assumption; try lia; try (apply Hts; lia); try (apply Htm; lia); try (intros i Hi; pose proof (Hl i Hi); lia).
    split; [exists D; exact Y|]. intros D' Y'. rewrite (U D' Y'). split; [exact P1|]. split; [exact P2|]. split; [exact P3|]. intros i Hi. apply P4; [exact Hi|apply add64_comm|apply Hd, Hi].
  - destruct (C45_bin_partial Z 0%Z mul64 add64 w W top nts nt T T T HC) as (D & (P1 & P2 & P3 & P4) & Y & U); try assumption; try lia; try (apply Hts; lia); try (apply Htm; lia); try (intros i Hi; pose proof (Hl i Hi); lia).
    split; [exists D; exact Y|]. intros D' Y'. rewrite (U D' Y'). split; [exact P1|]. split; [exact P2|]. split; [exact P3|]. intros i Hi. apply P4; [exact Hi|apply Hd, Hi].
  - destruct (C45_wobin_partial Z 0%Z mul64 add64 w W T T T HC) as (D & (P1 & P2 & P3 & P4) & HY); try assumption; try lia.
    + intros i Hi. pose proof (Hl i Hi). lia.
    + rewrite <- Hr in X1, X2. destruct (HY top nts asg1 asg2 X1 X2) as [Y U].
      split; [exists D; exact Y|]. intros D' Y'. rewrite (U D' Y'). split; [exact P1|]. split; [exact P2|]. split; [exact P3|]. intros i Hi. apply P4; [exact Hi|apply Hd, Hi].
Qed.
