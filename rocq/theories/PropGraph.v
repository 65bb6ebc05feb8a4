(** The graph programs built on the masked product: C39 (k-truss) and C40 (triangle counting). *)
From Coq Require Import NArith ZArith.
From Verif Require Import BaseProofs Examples GraphSpec GraphModel GraphProofs GraphCalls TriProofs.
From Verif Require Import Base Spec.

(** ** C39.  For k >= 3 the loop ends and its result is the k-truss.

    [libraryCall n mxm]: mxm is the call of one of the drivers (one or two phases; MSA, MCA, hash, heap or inner
    product) with f_one and plus, for all thread counts, schedules and scratch contents.
    Missing from the full statement: k = 2, which main accepts and for which the claim is false (below). *)
Theorem C39_ktruss_partial :
  forall n k mxm A, libraryCall n mxm -> 1 <= n -> 3 <= k -> good n A ->
  (exists R nsteps, kloop mxm k A (nnz A) R nsteps) /\
  (forall m T last, krounds mxm k A (nnz A) m T last -> m <= nnz A /\ exists C, kround mxm k T C) /\
  forall R nsteps, kloop mxm k A (nnz A) R nsteps ->
    nsteps <= nnz A + 1 /\ good n R /\ largest_trussed (k - 2) (edge A) (edge R) /\
    (symmetric_rel (edge A) -> symmetric_rel (edge R)).
Proof.
  intros n k mxm A HL Hn Hk HA.
  assert (Hex : forall T, wf T -> sorted_rows T -> rows T = n -> cols T = n -> exists C0, mxm T C0).
  { intros T H1 H2 H3 H4. apply (library_ok n mxm HL Hn T (conj H1 (conj H2 (conj H3 H4)))). }
  assert (Hpr : forall T C0, wf T -> sorted_rows T -> rows T = n -> cols T = n -> mxm T C0 -> isProduct T C0).
  { intros T C0 H1 H2 H3 H4. apply (library_ok n mxm HL Hn T (conj H1 (conj H2 (conj H3 H4)))). }
  split; [apply (kloop_ex mxm n k Hex Hpr A); [lia|exact HA]|]. split.
  - intros m T last HR. destruct (krounds_ok mxm n k Hex Hpr A (nnz A) m T last ltac:(lia) HA eq_refl HR) as (H1 & _ & H3).
    split; [lia|]. exact (round_ex mxm n k Hex Hpr T H1).
  - intros R st HR. destruct (kloop_ok mxm n k Hex Hpr A (nnz A) R st ltac:(lia) HA eq_refl HR) as (H1 & H2 & H3 & H4 & H5 & H6).
    unfold thr in *. rewrite Nat.max_r in * by lia. split; [exact H6|]. split; [exact H1|]. split; [|exact H5]. split; [exact H2|]. split; assumption.
Qed.
Print Assumptions C39_ktruss_partial.

(** For k = 2 the result is that of k = 3. *)
Theorem C39_k2 :
  forall n mxm A, libraryCall n mxm -> 1 <= n -> good n A ->
  (exists R nsteps, kloop mxm 2 A (nnz A) R nsteps) /\
  forall R nsteps, kloop mxm 2 A (nnz A) R nsteps -> largest_trussed 1 (edge A) (edge R).
Proof.
  intros n mxm A HL Hn HA.
  assert (Hex : forall T, wf T -> sorted_rows T -> rows T = n -> cols T = n -> exists C0, mxm T C0).
  { intros T H1 H2 H3 H4. apply (library_ok n mxm HL Hn T (conj H1 (conj H2 (conj H3 H4)))). }
  assert (Hpr : forall T C0, wf T -> sorted_rows T -> rows T = n -> cols T = n -> mxm T C0 -> isProduct T C0).
  { intros T C0 H1 H2 H3 H4. apply (library_ok n mxm HL Hn T (conj H1 (conj H2 (conj H3 H4)))). }
  split; [apply (kloop_ex mxm n 2 Hex Hpr A); [lia|exact HA]|].
  intros R st HR. destruct (kloop_ok mxm n 2 Hex Hpr A (nnz A) R st ltac:(lia) HA eq_refl HR) as (H1 & H2 & H3 & H4 & _).
  split; [exact H2|]. split; assumption.
Qed.
Print Assumptions C39_k2.

(** A path 0 - 1: the 2-truss is the path itself (no triangle is asked for), the program returns
    the empty graph. *)
Definition exPath : csr Z := mkCsr 2 2 2 [0;1;2] [1;0] [1;1]%Z.
Lemma exPath_good : good 2 exPath.
Proof. split; [prove_wf|]. split; [prove_sorted|]. split; reflexivity. Qed.
Definition exCall : csr Z -> csr Z -> Prop := fun T C => DriverStatements.yields1p (AlgModel.msaAlg fOne Z.add false 8) T T T C.
Lemma exCall_lib n : n <= 100 -> libraryCall n exCall.
Proof. intros H. apply lc_msa1; lia. Qed.

Theorem C39_ktruss_refuted :
  ~ (forall n k mxm A R nsteps, libraryCall n mxm -> 1 <= n -> 2 <= k -> good n A -> symmetric_rel (edge A) ->
     kloop mxm k A (nnz A) R nsteps -> largest_trussed (k - 2) (edge A) (edge R)).
Proof.
  intros H. destruct (C39_k2 2 exCall exPath (exCall_lib 2 ltac:(lia)) ltac:(lia) exPath_good) as [(R & st & HR) Hall].
  assert (Hrows : forall i j, edge exPath i j -> (i = 0 /\ j = 1) \/ (i = 1 /\ j = 0)).
  { intros i j [Hi Hj]. cbn in Hi. destruct i as [|[|i]]; [| |lia]; vm_compute in Hj; apply elem_of_list_singleton in Hj; auto. }
  assert (Hsym : symmetric_rel (edge exPath)).
  { intros i j Hij. apply Hrows in Hij as [[-> ->]|[-> ->]]; (split; [cbn; lia|vm_compute; left]). }
  destruct (H 2 2 exCall exPath R st (exCall_lib 2 ltac:(lia)) ltac:(lia) ltac:(lia) exPath_good Hsym HR) as (_ & _ & Hmax).
  destruct (Hall R st HR) as (Hsub & Htr & _).
  assert (He : edge R 0 1).
  { apply (Hmax (edge exPath)); [auto| |split; [cbn; lia|vm_compute; left]].
    intros i j _. exists []. split; [constructor|]. split; [reflexivity|]. intros w Hw. inversion Hw. }
  destruct (Htr 0 1 He) as ([|w ws] & _ & Hlen & Hws); [discriminate|]. destruct (Hws w ltac:(left)) as [H1 H2].
  apply Hsub, Hrows in H1. apply Hsub, Hrows in H2. lia.
Qed.
Print Assumptions C39_ktruss_refuted.

(** A triangle 0-1-2 with a pendant edge 2-3: the 3-truss is the triangle. *)
Definition exTri : csr Z := mkCsr 4 4 8 [0;2;4;7;8] [1;2;0;2;0;1;3;2] [1;1;1;1;1;1;1;1]%Z.
Lemma exTri_good : good 4 exTri.
Proof. split; [prove_wf|]. split; [prove_sorted|]. split; reflexivity. Qed.
Lemma exTri_edge i j : edge exTri i j <-> (i, j) ∈ [(0,1);(0,2);(1,0);(1,2);(2,0);(2,1);(2,3);(3,2)].
Proof.
  split.
  - intros [Hi Hj]. cbn in Hi. rewrite !elem_of_cons.
    destruct i as [|[|[|[|i]]]]; [..|lia]; vm_compute in Hj; change (elem_of_list j ?l) with (j ∈ l) in Hj; rewrite ?elem_of_cons, elem_of_nil in Hj; destruct_or?; subst; try contradiction; repeat (first [left; reflexivity|right]).
  - intros H. rewrite !elem_of_cons, elem_of_nil in H.
    assert (Hok : forall x y, x < 4 -> y ∈ row_cols exTri x -> (i, j) = (x, y) -> edge exTri i j).
    { intros x y Hx Hy E. injection E as -> ->. split; [exact Hx|exact Hy]. }
    destruct H as [H|[H|[H|[H|[H|[H|[H|[H|H]]]]]]]]; [..|contradiction]; refine (Hok _ _ _ _ H); try lia; apply elem_of_list_In; vm_compute; tauto.
Qed.
Example C39_example : libraryCall 4 exCall /\ good 4 exTri /\ symmetric_rel (edge exTri) /\
  exists R nsteps, kloop exCall 3 exTri (nnz exTri) R nsteps /\ edge R 0 1 /\ edge R 1 2 /\ ~ edge R 2 3.
Proof.
  split; [apply exCall_lib; lia|]. split; [exact exTri_good|]. split.
  { intros i j H. apply exTri_edge in H. apply exTri_edge. rewrite !elem_of_cons, elem_of_nil in *. intuition congruence. }
  destruct (C39_ktruss_partial 4 3 exCall exTri (exCall_lib 4 ltac:(lia)) ltac:(lia) ltac:(lia) exTri_good) as ((R & st & HR) & _ & Hall).
  exists R, st. split; [exact HR|]. destruct (Hall R st HR) as (_ & _ & (Hsub & Htr & Hmax) & _).
  assert (Htri : forall i j, i <> j -> i < 3 -> j < 3 -> edge R i j).
  { intros i j Hij Hi Hj. apply (Hmax (fun i j => i <> j /\ i < 3 /\ j < 3)); [| |auto].
    - intros a b (H1 & H2 & H3). apply exTri_edge. rewrite !elem_of_cons, elem_of_nil.
      destruct a as [|[|[|a]]]; destruct b as [|[|[|b]]]; try lia; tauto.
    - intros a b (H1 & H2 & H3). exists [3 - a - b]. split; [apply NoDup_singleton|]. split; [reflexivity|].
      intros w Hw. apply elem_of_list_singleton in Hw as ->. lia. }
  split; [apply Htri; lia|]. split; [apply Htri; lia|]. intros H. destruct (Htr 2 3 H) as ([|w ws] & _ & Hlen & Hws); [discriminate|].
  destruct (Hws w ltac:(left)) as [H1 H2]. apply Hsub, exTri_edge in H1. apply Hsub, exTri_edge in H2.
  rewrite !elem_of_cons, elem_of_nil in H1, H2. intuition congruence.
Qed.

(** ** C40.  The sum of L .* (L L) counts every triangle of the graph once: it is the length of any
    list without repetition of the triangles a < b < c.  (The program adds in 64 bits; the sum here is the exact
    one.) *)
Theorem C40_triangles :
  forall n mxm A L, libraryCall n mxm -> 1 <= n -> good n A -> symmetric_rel (edge A) -> lowTri A L ->
  (exists C, mxm L C) /\
  forall C, mxm L C -> forall ts, NoDup ts ->
    (forall a b c, (a, b, c) ∈ ts <-> a < b /\ b < c /\ edge A a b /\ edge A b c /\ edge A a c) ->
    reduceSum C = Z.of_nat (length ts).
Proof.
  intros n mxm A L HL Hn HA Hs HT. destruct (low_good n A L HA HT) as [HG _]. destruct (library_ok n mxm HL Hn L HG) as [Hex Hpr].
  split; [exact Hex|]. intros C HC ts Hnd Hts. exact (tri_count n A L C ts HA HT Hs (Hpr C HC) Hnd Hts).
Qed.
Print Assumptions C40_triangles.

Example C40_example : exists L C, lowTri exTri L /\ exCall L C /\ reduceSum C = 1%Z.
Proof.
  destruct (low_ex exTri (proj1 exTri_good)) as [L HL]. destruct C39_example as (_ & _ & Hs & _).
  destruct (C40_triangles 4 exCall exTri L (exCall_lib 4 ltac:(lia)) ltac:(lia) exTri_good Hs HL) as ((C & HC) & Hall).
  exists L, C. split; [exact HL|]. split; [exact HC|]. rewrite (Hall C HC [(0,1,2)]); [reflexivity|apply NoDup_singleton|].
  intros a b c. rewrite !exTri_edge, elem_of_list_singleton. split.
  - intros E. injection E as -> -> ->. rewrite !elem_of_cons. split; [lia|]. split; [lia|]. tauto.
  - intros (H1 & H2 & H3 & H4 & H5). rewrite !elem_of_cons, elem_of_nil in H3, H4, H5.
    assert (a = 0 /\ b = 1 /\ c = 2); [|intuition congruence]. 
    repeat destruct H3 as [H3|H3]; try contradiction; injection H3 as -> ->; try lia;
    repeat destruct H4 as [H4|H4]; try contradiction; try discriminate; injection H4 as ->; try lia;
    repeat destruct H5 as [H5|H5]; try contradiction; discriminate.
Qed.
