(** The calls and loops of HeapSpGEMM.cpp. *)
From Coq Require Import NArith ZArith Ascii String Sorted.
From stdpp Require Import numbers list_numbers gmap sorting.
From Verif Require Import BaseProofs WorkModel WorkProofs Assemble MatSpec MatStatements ConvProofs IsectProofs PropReport IoSpec IoModel MatModel PropMat DriverModel HeapCscModel PropHeapCsc
  MainSpec AllMainSpec AllMainProofs AllMainCalls SpaMainSpec GenModel ReportModel HashProdModel HeapProgModel.
From Verif Require Import Base Spec.
Local Open Scope nat_scope.

(** ** The number of entries *)
Section Count.
Context {V : Type} (mul add : V -> V -> V) (ofInt : Z -> V) (A B C : csc V) (A' B' : csr V) (EA EB : list (nat * nat * Z)).
Context (HA : wf_csc A) (HB : wf_csc B) (HA' : wf A') (HB' : wf B') (SA : same_matrix A' A) (SB : same_matrix B' B) (HsA : sorted_cols A) (HsB : sorted_cols B).
Context (DA : distinct_rows A') (DB : distinct_rows B') (Hin : cols A' = rows B') (PA : conv ofInt <$> EA ≡ₚ triples A') (PB : conv ofInt <$> EB ≡ₚ triples B').
Context (HC : wf_csc C) (Hr : c_rows C = c_rows A) (Hcc : c_cols C = c_cols B) (HF : forall j, j < c_cols B -> full_col mul add A B j (col_entries C j)).

Lemma sorted_NoDup l : StronglySorted lt l -> NoDup l.
Proof using Type. clear. induction 1 as [|x l _ IH Hx]; constructor; [|exact IH]. intros Hin. rewrite Forall_forall in Hx. specialize (Hx x Hin). lia. Qed.
Lemma cell_pos i j : i < c_rows A -> j < c_cols B -> cellProducts mul A B i j <> [] <-> (i, j) ∈ step_pos <$> meeting EA EB.
Proof.
  intros Hi Hj. rewrite <- (products_some mul ofInt EA EB i j).
  pose proof (cellProducts_perm mul A B A' B' i j HA' HB SA SB Hin DA DB HsA (fun j Hj => sorted_NoDup _ (HsB j Hj)) Hi Hj) as P1.
  pose proof (products_file mul ofInt A' B' EA EB HA' Hin PA PB i j ltac:(rewrite (sm_rows _ _ SA); exact Hi)) as P2. rewrite P2 in P1.
  split; intros H E; apply H; rewrite E in P1; [|apply Permutation_nil; exact P1]; symmetry in P1; apply Permutation_nil, P1.
Qed.
Lemma pos_range i j : (i, j) ∈ step_pos <$> meeting EA EB -> i < c_rows A /\ j < c_cols B.
Proof.
  intros H. apply elem_of_list_fmap in H as ([e e'] & E & H). unfold meeting in H. apply elem_of_list_filter in H as [_ H]. apply elem_of_list_In, in_prod_iff in H as [H1 H2]. apply elem_of_list_In in H1, H2.
  unfold step_pos in E. injection E as -> ->. destruct e as [[i k] v], e' as [[k' j] v']. cbn [fst snd].
  assert (I1 : conv ofInt (i, k, v) ∈ triples A') by (rewrite <- PA; apply elem_of_list_fmap; eauto). assert (I2 : conv ofInt (k', j, v') ∈ triples B') by (rewrite <- PB; apply elem_of_list_fmap; eauto).
  apply triplesV_elem in I1 as [I1 _], I2 as [_ I2]. rewrite <- (sm_rows _ _ SA), <- (sm_cols _ _ SB). split; [exact I1|]. eapply row_entries_range; [exact HB'|exact I2].
Qed.
Lemma count_C : product_count EA EB (c_nnz C).
Proof.
  exists ((fun p => (snd p, fst p)) <$> (fst <$> triples (csc_tr C))). split; [|split].
  - apply NoDup_fmap_2; [intros [a b] [c d] E; cbn in E; congruence|]. apply rowsV_NoDup. intros j Hj. apply sorted_NoDup. cbn in Hj. rewrite Hcc in Hj. apply (HF j Hj).
  - intros [i j]. rewrite elem_of_list_fmap. split.
    + intros ([j' i'] & E & H). cbn [fst snd] in E. injection E as -> ->. apply triplesV_pos in H as [Hj H]. cbn [csc_tr rows] in Hj. rewrite Hcc in Hj.
      assert (Hi : i' < c_rows A). { unfold row_cols in H. apply elem_of_list_fmap in H as ([i2 v] & -> & H). rewrite <- Hr. exact (row_entries_range (csc_tr C) j' i2 v HC H). }
      apply cell_pos; [exact Hi|exact Hj|]. apply (HF j' Hj). exact H.
    + intros H. destruct (pos_range i j H) as [Hi Hj]. exists (j, i). split; [reflexivity|]. apply triplesV_pos. split; [cbn; lia|]. apply (HF j Hj). apply cell_pos; assumption.
  - rewrite fmap_length. apply (triplesV_length (csc_tr C)), HC.
Qed.
End Count.

(** ** The loops *)
Section Loops.
Context {V : Type} (dflt : V) (mul add : V -> V -> V) (itmax t : nat) (A B C : csc V).
Context (HY : yieldsHC mul add dflt A B C) (HC : wf_csc C) (Hc : 1 <= c_cols C) (Ht : 1 <= t).

Lemma heapCall_ok C0 C' l : heapCall dflt mul add itmax t A B C0 C' l <-> C' = C /\ l = lostOf C0.
Proof using HY Ht.
  clear HC Hc.
  assert (E0 : threeObjs A B C0 !! 0 = Some (OCsc A)) by apply lookup_insert.
  assert (E1 : threeObjs A B C0 !! 1 = Some (OCsc B)) by (unfold threeObjs; rewrite lookup_insert_ne by lia; apply lookup_insert).
  assert (E2 : threeObjs A B C0 !! 2 = Some (OCsc C0)) by (unfold threeObjs; rewrite !lookup_insert_ne by lia; apply lookup_insert).
  assert (Y : forall nts, exists lost, HeapCsc_ends mul add dflt (2 * itmax + 1) nts t 0 1 2 (threeObjs A B C0) (<[2 := OCsc C]> (threeObjs A B C0)) lost /\
    forall s' lost', HeapCsc_ends mul add dflt (2 * itmax + 1) nts t 0 1 2 (threeObjs A B C0) s' lost' -> s' = <[2 := OCsc C]> (threeObjs A B C0) /\ lost' = lost).
  { intros nts. apply (HY (2 * itmax + 1) nts t 0 1 2 C0 (threeObjs A B C0) Ht E0 E1 E2); lia. }
  assert (L : forall nts s' lost, HeapCsc_ends mul add dflt (2 * itmax + 1) nts t 0 1 2 (threeObjs A B C0) s' lost -> lost = lostOf C0).
  { intros nts s' lost (_ & A' & B' & QA & QB & fl & tot & Qf & st0 & en0 & Qs0 & Qe0 & cs & Qcs & en1 & Qend & c0 & c1 & cut & Qc0 & Qcut & Qset & en & loc' & Qnum & s1' & nr' & nc' & QR & _).
    destruct (resetC_ok A B 0 1 2 (threeObjs A B C0) C0 E0 E1 E2 ltac:(lia) ltac:(lia)) as (s1 & ER & _). rewrite ER in QR. injection QR as _ _ _ <-. reflexivity. }
  unfold heapCall. split.
  - intros (_ & nts & s' & H & Hd). split; [|eapply L, H]. destruct (Y nts) as (lost & _ & Hu). destruct (Hu _ _ H) as [-> _].
    rewrite (deref_csc_Some _ 2 C) in Hd by apply lookup_insert. injection Hd as <-. reflexivity.
  - intros [-> ->]. split; [intros nts; destruct (Y nts) as (lost & H & _); eauto|]. destruct (Y 1) as (lost & H & _). exists 1, (<[2 := OCsc C]> (threeObjs A B C0)).
    rewrite <- (L 1 _ _ H). split; [exact H|]. apply deref_csc_Some, lookup_insert.
Qed.
Lemma empty_C : emptyCsc C = (newCsc, 0).
Proof using HC Hc.
  clear Ht.
  unfold emptyCsc, newCsc. f_equal. destruct (Nat.eqb_spec (c_cols C) 0); [lia|]. destruct (Nat.eqb_spec (c_nnz C) 0) as [E|]; [|reflexivity].
  pose proof (wf_colids _ HC) as L1. pose proof (wf_values _ HC) as L2. cbn [csc_tr colids values nnz] in L1, L2. lia.
Qed.
Lemma heapIters_ok iters C' l : forall n k, k + S n = iters -> heapIters dflt mul add itmax iters t A B (seq k (S n)) newCsc 0 C' l <-> C' = C /\ l = 0.
Proof.
  induction n as [|n IH]; intros k Hk; rewrite <- cons_seq; cbn [heapIters].
  - assert (E : (k <? iters - 1) = false) by (apply Nat.ltb_ge; lia). rewrite E. split.
    + intros (C1 & l1 & H & K). apply heapCall_ok in H as [-> ->]. exact K.
    + intros [-> ->]. exists C, (lostOf (@newCsc V)). split; [apply heapCall_ok; auto|]. split; reflexivity.
  - assert (E : (k <? iters - 1) = true) by (apply Nat.ltb_lt; lia). rewrite E. rewrite <- (IH (S k)) by lia. split.
    + intros (C1 & l1 & H & K). apply heapCall_ok in H as [-> ->]. rewrite empty_C in K. exact K.
    + intros K. exists C, (lostOf (@newCsc V)). split; [apply heapCall_ok; auto|]. rewrite empty_C. exact K.
Qed.
Lemma heapOne_ok iters line l : 1 <= iters -> heapOne dflt mul add itmax iters A B t line l <-> line = (c_nnz C, t) /\ l = 0.
Proof.
  intros Hi. destruct iters as [|n]; [lia|]. unfold heapOne. split.
  - intros (C1 & l1 & H & K). apply heapCall_ok in H as [-> ->]. rewrite empty_C in K. destruct K as (C3 & l3 & H3 & -> & K). apply (heapIters_ok (S n)) in H3 as [-> ->]; [|lia]. rewrite empty_C in K. split; [reflexivity|exact K].
  - intros [-> ->]. exists C, (lostOf (@newCsc V)). split; [apply heapCall_ok; auto|]. rewrite empty_C. exists C, 0. split; [apply (heapIters_ok (S n)); [lia|auto]|]. split; [reflexivity|]. rewrite empty_C. reflexivity.
Qed.
End Loops.
Lemma heapAll_ok {V} (dflt : V) mul add itmax iters A B C : yieldsHC mul add dflt A B C -> wf_csc C -> 1 <= c_cols C -> 1 <= iters ->
  forall tnums lines l, (forall t, t ∈ tnums -> 1 <= t) -> heapAll dflt mul add itmax iters A B tnums lines l <-> lines = (fun t => (c_nnz C, t)) <$> tnums /\ l = 0.
Proof.
  intros HY HC Hc Hi. induction tnums as [|t ts IH]; intros lines l Ht; [reflexivity|]. cbn [heapAll].
  assert (IH' := fun lines l => IH lines l ltac:(intros; apply Ht; right; assumption)). split.
  - intros (line & l1 & lines2 & l2 & H1 & H2 & -> & ->). apply (heapOne_ok dflt mul add itmax t A B C HY HC Hc ltac:(apply Ht; left) iters) in H1 as [-> ->]; [|exact Hi]. apply IH' in H2 as [-> ->]. split; reflexivity.
  - intros [-> ->]. exists (c_nnz C, t), 0. eexists _, 0. split; [apply (heapOne_ok dflt mul add itmax t A B C HY HC Hc ltac:(apply Ht; left) iters _ _ Hi); auto|]. split; [apply IH'; split; reflexivity|]. split; reflexivity.
Qed.
