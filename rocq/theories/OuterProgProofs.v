(** The calls and loops of OuterSpGEMM.cpp. *)
From Coq Require Import NArith ZArith Ascii String Sorted.
From stdpp Require Import numbers list_numbers gmap sorting.
From Verif Require Import BaseProofs WorkModel WorkProofs Assemble MatSpec MatStatements ConvProofs IsectProofs PropReport IoSpec IoModel MatModel PropMat DriverModel DriverProofs OuterModel PropOuter
  MainSpec AllMainSpec AllMainProofs AllMainCalls SpaMainSpec GenModel ReportModel OuterProgModel.
From Verif Require Import Base Spec.
Local Open Scope nat_scope.

(** ** The number of entries.  [T] is A by rows. *)
Section Count.
Context {V : Type} (mul add : V -> V -> V) (ofInt : Z -> V) (A : csc V) (T B C : csr V) (EA EB : list (nat * nat * Z)).
Context (HT : wf T) (S : same_matrix T A) (DT : distinct_rows T) (DA : forall k, k < c_cols A -> NoDup (fst <$> col_entries A k)).
Context (Hin : cols T = rows B) (PA : conv ofInt <$> EA ≡ₚ triples T) (PB : conv ofInt <$> EB ≡ₚ triples B) (HC : right_C mul add A B C).

Lemma count_outer : product_count EA EB (nnz C).
Proof.
  destruct HC as (HW & Hr & Hcc & Hrow). assert (SN : forall l, StronglySorted lt l -> NoDup l).
  { induction 1 as [|x l _ IH Hx]; constructor; [|exact IH]. intros Hi. rewrite Forall_forall in Hx. specialize (Hx x Hi). lia. }
  assert (Q : forall i j, i < c_rows A -> outerProducts mul A B i j <> [] <-> (i, j) ∈ step_pos <$> meeting EA EB).
  { intros i j Hi. rewrite <- (products_some mul ofInt EA EB i j). rewrite <- (sm_rows _ _ S) in Hi.
    pose proof (products_outer mul A B T i j HT S DT DA Hi) as P1. rewrite (products_file mul ofInt T B EA EB HT Hin PA PB i j Hi) in P1.
    split; intros H E; apply H; rewrite E in P1; [|apply Permutation_nil; exact P1]; symmetry in P1; apply Permutation_nil, P1. }
  exists (fst <$> triples C). split; [apply rowsV_NoDup; intros i Hi; apply SN, Hrow; congruence|]. split; [|apply triplesV_length, HW].
  intros [i j]. rewrite triplesV_pos, Hr. split.
  - intros [Hi H]. apply Q; [exact Hi|]. apply (Hrow i Hi). exact H.
  - intros H. assert (Hi : i < c_rows A).
    { clear -H PA S. apply elem_of_list_fmap in H as ([e e'] & E & H). unfold meeting in H. apply elem_of_list_filter in H as [_ H]. apply elem_of_list_In, in_prod_iff in H as [H _]. apply elem_of_list_In in H.
      unfold step_pos in E. injection E as -> _. destruct e as [[i k] v]. assert (I1 : conv ofInt (i, k, v) ∈ triples T) by (rewrite <- PA; apply elem_of_list_fmap; eauto).
      apply triplesV_elem in I1 as [I1 _]. rewrite (sm_rows _ _ S) in I1. exact I1. }
    split; [exact Hi|]. apply (Hrow i Hi), Q; assumption.
Qed.
End Count.

(** Fewer products in a block than there are pairs. *)
Lemma block_le {V} (A : csc V) (B : csr V) R b : c_cols A = rows B -> blockProducts A B R b <= mult_pairs (triples_csc A) (triples B).
Proof.
  intros Hc. rewrite (mult_pairs_outer A B Hc). unfold blockProducts. induction (seq 0 (c_cols A)) as [|k l IH]; [reflexivity|]. rewrite !fmap_cons. cbn [sum_list].
  apply Nat.add_le_mono; [|exact IH]. apply Nat.mul_le_mono_r. induction (col_entries A k) as [|x e IHe]; [reflexivity|]. rewrite filter_cons. destruct (decide _); simpl; lia.
Qed.
Lemma column_le {V} (A : csc V) (B : csr V) i : c_cols A = rows B -> i < c_cols A -> length (col_entries A i) * length (row_entries B i) <= mult_pairs (triples_csc A) (triples B).
Proof.
  intros Hc Hi. rewrite (mult_pairs_outer A B Hc). assert (Hin : i ∈ seq 0 (c_cols A)) by (apply elem_of_seq; lia). induction (seq 0 (c_cols A)) as [|k l IH]; [inversion Hin|]. rewrite fmap_cons. cbn [sum_list]. unfold id at 1.
  apply elem_of_cons in Hin as [->|Hin]; [apply Nat.le_add_r|]. specialize (IH Hin). etransitivity; [exact IH|apply Nat.le_add_l].
Qed.

(** ** The loops *)
Section Loops.
Context {V : Type} (mul add : V -> V -> V) (itmax t nb bw : nat) (argv : list text) (A : csc V) (B : csr V).
Context (Hnb : numArg argv 6 = Ok nb) (Hbw : numArg argv 7 = Ok bw) (HA : outer_args A B nb bw t) (HS : outer_sizes A B nb) (HN : (N.of_nat (c_rows A + 1) < 2 ^ 17)%N).
Local Notation K := (c_rows A + nb + t).
Local Notation good_call r := (exists C' lost, r = Ok (C', lost) /\ right_C mul add A B C' /\ K <= lost).

Lemma outerCall_ok C0 : (exists r, outerCall mul add itmax argv t A B C0 r) /\ forall r, outerCall mul add itmax argv t A B C0 r -> good_call r.
Proof using All.
  set (s := outerObjs A B C0). assert (E0 : s !! 0 = Some (OCsc A)) by apply lookup_insert.
  assert (E1 : s !! 1 = Some (OMat B)) by (unfold s, outerObjs; rewrite lookup_insert_ne by (clear; lia); apply lookup_insert).
  assert (E2 : s !! 2 = Some (OMat C0)) by (unfold s, outerObjs; rewrite !lookup_insert_ne by (clear; lia); apply lookup_insert).
  assert (HO : outer_objs A B 0 1 2 s) by (split; [exact E0|]; split; [exact E1|eauto]).
  pose proof (fun nts => C51_outer_partial V mul add A B nb bw t (2 * itmax + 1) nts 0 1 2 s HA HS HN HO ltac:(clear; lia)) as Y.
  unfold outerCall. rewrite Hnb. cbn [bind]. rewrite Hbw. cbn [bind]. fold s. split.
  - destruct (Y 1) as [[o Ho] _]. eexists. exists 1, o. split; [exact Ho|reflexivity].
  - intros r (nts & o & Ho & ->). destruct (Y nts) as [_ HU]. destruct (HU o Ho) as (C & lost & -> & HC). exists C, lost. cbn [bind].
    rewrite (deref_mat _ 2 C) by apply lookup_insert. cbn [bind]. split; [reflexivity|]. split; [exact HC|].
    eapply C51_leak_refuted; [exact E0|exact Ho|apply HA].
Qed.
Lemma outerIters_ok iters : forall n k C0 lost, k + S n = iters -> (exists r, outerIters mul add itmax iters argv t A B (seq k (S n)) C0 lost r) /\
  forall r, outerIters mul add itmax iters argv t A B (seq k (S n)) C0 lost r -> exists C' lost', r = Ok (C', lost') /\ right_C mul add A B C' /\ lost + S n * K <= lost'.
Proof using All.
  induction n as [|n IH]; intros k C0 lost Hk; rewrite <- cons_seq; cbn [outerIters]; destruct (outerCall_ok C0) as [[r0 H0] HU].
  - assert (E : (k =? iters - 1) = true) by (apply Nat.eqb_eq; clear -Hk; lia). rewrite E. cbn [negb seq outerIters]. split.
    + destruct (HU r0 H0) as (C & l & -> & _). eexists. exists (Ok (C, l)). split; [exact H0|]. reflexivity.
    + intros r (r1 & H1 & H). destruct (HU r1 H1) as (C & l & -> & HC & HK). subst r. exists C, (lost + l + 0). split; [reflexivity|]. split; [exact HC|]. clear -HK. lia.
  - assert (E : (k =? iters - 1) = false) by (apply Nat.eqb_neq; clear -Hk; lia). rewrite E. cbn [negb]. split.
    + destruct (HU r0 H0) as (C & l & -> & _). destruct (emptyCsr C) as [C2 l2] eqn:EC. destruct (IH (S k) C2 (lost + l + l2) ltac:(clear -Hk; lia)) as [[r2 H2] _].
      exists r2. exists (Ok (C, l)). split; [exact H0|]. rewrite EC. exact H2.
    + intros r (r1 & H1 & H). destruct (HU r1 H1) as (C & l & -> & HC & HK). destruct (emptyCsr C) as [C2 l2]. destruct (IH (S k) C2 (lost + l + l2) ltac:(clear -Hk; lia)) as [_ H2].
      destruct (H2 r H) as (C' & lost' & -> & HC' & HK'). exists C', lost'. split; [reflexivity|]. split; [exact HC'|]. clear -HK HK'. lia.
Qed.
Lemma outerOne_ok iters : 1 <= iters -> (exists r, outerOne mul add itmax iters argv A B t r) /\
  forall r, outerOne mul add itmax iters argv A B t r -> exists C lost, r = Ok ((nnz C, t), lost) /\ right_C mul add A B C /\ (iters + 1) * K <= lost.
Proof using All.
  intros Hi. destruct iters as [|n]; [clear -Hi; lia|]. unfold outerOne. destruct (outerCall_ok newCsr) as [[r0 H0] HU]. split.
  - destruct (HU r0 H0) as (C & l & -> & _). destruct (emptyCsr C) as [C2 l2] eqn:EC. destruct (outerIters_ok (S n) n 0 C2 (l + l2) ltac:(reflexivity)) as [[r2 H2] _].
    eexists. exists (Ok (C, l)). split; [exact H0|]. rewrite EC. exists r2. split; [exact H2|]. reflexivity.
  - intros r (r1 & H1 & H). destruct (HU r1 H1) as (C & l & -> & _ & HK). destruct (emptyCsr C) as [C2 l2]. destruct H as (r2 & H2 & ->).
    destruct (outerIters_ok (S n) n 0 C2 (l + l2) ltac:(reflexivity)) as [_ HI]. destruct (HI r2 H2) as (C' & lost' & -> & HC' & HK'). cbn [bind].
    destruct (emptyCsr C') as [C4 l4]. destruct (emptyCsr C4) as [C5 l5]. exists C', (lost' + l4 + l5). split; [reflexivity|]. split; [exact HC'|]. clear -HK HK'. lia.
Qed.
End Loops.
