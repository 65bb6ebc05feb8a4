(** C62: operator== of the matrices. *)
From Coq Require Import QArith Qabs Lqa.
Close Scope Q_scope.
From Verif Require Import BaseProofs Assemble Examples EqModel EqProofs ShufModel ShufSpec.
From Verif Require Import Base Spec.

Section C62.
Context {V : Type}.

(** The object [X] holds the matrix [A]: the indices are stored from 0 or from 1 on and fit the index type. *)
Record holds (w : N) (X : csrI V) (A : csr V) : Prop := mkHolds {
  ho_rows : i_rows X = N.of_nat (rows A);
  ho_cols : i_cols X = N.of_nat (cols A);
  ho_nnz : i_nnz X = N.of_nat (nnz A);
  ho_ptr : i_rowptr X = (fun x => N.of_nat x + if i_zerobased X then 0 else 1)%N <$> rowptr A;
  ho_ids : i_colids X = (fun x => N.of_nat x + if i_zerobased X then 0 else 1)%N <$> colids A;
  ho_vals : i_values X = values A;
  ho_fits : Forall (fun x => x < 2 ^ w)%N (i_rowptr X) /\ Forall (fun x => x < 2 ^ w)%N (i_colids X) }.

(** Same shape and, row by row, the same columns in the same order with values that compare as equal. *)
Definition same_rows (tol : V -> V -> bool) (A B : csr V) : Prop :=
  rows A = rows B /\ cols A = cols B /\
  forall i, i < rows A -> Forall2 (fun e e' => fst e = fst e' /\ tol (snd e) (snd e') = true) (row_entries A i) (row_entries B i).

Theorem C62_csc (tol : V -> V -> bool) (X Y : csc V) : wf_csc X -> wf_csc Y ->
  exists b, eqCsc (fun x y => Ok (tol x y)) X Y = Ok b /\
    (b = true <-> c_rows X = c_rows Y /\ c_cols X = c_cols Y /\
       forall j, j < c_cols X -> Forall2 (fun e e' => fst e = fst e' /\ tol (snd e) (snd e') = true) (col_entries X j) (col_entries Y j)).
Proof. apply eqCsc_ok. Qed.

Lemma shift_inj (c : N) (p q : list nat) : (fun x => N.of_nat x + c)%N <$> p = (fun x => N.of_nat x + c)%N <$> q <-> p = q.
Proof.
  split; [|congruence]. revert q. induction p as [|x p IH]; intros [|y q] H; try discriminate; [reflexivity|].
  rewrite !fmap_cons in H. injection H as H1 H2. f_equal; [lia|apply IH, H2].
Qed.
Lemma shift_back (p : list nat) : (fun x => x - 1)%N <$> ((fun x => N.of_nat x + 1)%N <$> p) = (fun x => N.of_nat x + 0)%N <$> p.
Proof. rewrite <- list_fmap_compose. apply list_fmap_ext. intros. simpl. lia. Qed.
Lemma shift_minus w (p : list nat) : Forall (fun x => x < 2 ^ w)%N ((fun x => N.of_nat x + 1)%N <$> p) ->
  copyMinus1 w ((fun x => N.of_nat x + 1)%N <$> p) (length p) = Ok ((fun x => N.of_nat x + 0)%N <$> p).
Proof.
  intros H. rewrite <- shift_back, <- (copyMinus1_ok w); [rewrite fmap_length; reflexivity|].
  apply Forall_forall. intros x Hx. pose proof (proj1 (Forall_forall _ _) H x Hx). apply elem_of_list_fmap in Hx as (y & -> & _). lia.
Qed.
Lemma eqIdx_shift (c : N) (p q : list nat) n : length p = n -> length q = n ->
  exists b, eqIdx ((fun x => N.of_nat x + c)%N <$> p) ((fun x => N.of_nat x + c)%N <$> q) n = Ok b /\ (b = true <-> p = q).
Proof.
  intros Hp Hq. destruct (stdEqual_eq N.eqb N.eqb_eq ((fun x => N.of_nat x + c)%N <$> p) ((fun x => N.of_nat x + c)%N <$> q) n) as (b & Hb & E);
    [rewrite fmap_length; assumption..|]. exists b. split; [exact Hb|]. rewrite E. apply shift_inj.
Qed.

Theorem C62_csr (w : N) (tol : V -> V -> bool) (X Y : csrI V) (A B : csr V) : holds w X A -> holds w Y B -> wf A -> wf B ->
  exists b, eqCsr (fun x y => Ok (tol x y)) w X Y = Ok b /\ (b = true <-> same_rows tol A B).
Proof.
  intros [X1 X2 X3 X4 X5 X6 [X7 X8]] [Y1 Y2 Y3 Y4 Y5 Y6 [Y7 Y8]] HA HB. unfold eqCsr, same_rows.
  pose proof (wf_len A HA) as LA. pose proof (wf_len B HB) as LB. pose proof (wf_colids A HA) as CA. pose proof (wf_colids B HB) as CB.
  rewrite X1, X2, X3, Y1, Y2, Y3.
  assert (Dn : rows A = rows B -> (forall i, i < rows A -> Forall2 (fun e e' => fst e = fst e' /\ tol (snd e) (snd e') = true) (row_entries A i) (row_entries B i)) -> nnz A = nnz B).
  { intros Hc H. apply (proj2 (arrays_rows tol A B HA HB Hc) H). }
  destruct (N.eqb_spec (N.of_nat (nnz A)) (N.of_nat (nnz B))) as [En|En]; cbn [negb orb].
  2:{ exists false. split; [reflexivity|]. split; [discriminate|]. intros (Hc & _ & H). specialize (Dn Hc H). lia. }
  destruct (N.eqb_spec (N.of_nat (rows A)) (N.of_nat (rows B))) as [Er|Er]; cbn [negb orb].
  2:{ exists false. split; [reflexivity|]. split; [discriminate|]. intros (Hr & _). lia. }
  destruct (N.eqb_spec (N.of_nat (cols A)) (N.of_nat (cols B))) as [Ec|Ec]; cbn [negb orb].
  2:{ exists false. split; [reflexivity|]. split; [discriminate|]. intros (_ & Hc & _). lia. }
  apply Nat2N.inj in En, Er, Ec. rewrite !Nat2N.id.
  pose proof (arrays_rows tol A B HA HB Er) as AR.
  match goal with |- exists b, bind ?e ?k = _ /\ _ =>
    assert (HI : exists b, e = Ok b /\ (b = true <-> rowptr A = rowptr B /\ colids A = colids B)) end.
  { assert (Fin : forall c P I Q J, P = (fun x => N.of_nat x + c)%N <$> rowptr A -> Q = (fun x => N.of_nat x + c)%N <$> rowptr B ->
       I = (fun x => N.of_nat x + c)%N <$> colids A -> J = (fun x => N.of_nat x + c)%N <$> colids B ->
       exists b, (same <- eqIdx P Q (rows A + 1) ;; if same : bool then eqIdx I J (nnz A) else Ok false) = Ok b /\ (b = true <-> rowptr A = rowptr B /\ colids A = colids B)).
    { intros c P I Q J -> -> -> ->. destruct (eqIdx_shift c (rowptr A) (rowptr B) (rows A + 1) LA ltac:(lia)) as (b1 & -> & B1). cbn [bind].
      destruct b1; [|exists false; split; [reflexivity|]; split; [discriminate|intros [H _]; apply B1, H]].
      destruct (eqIdx_shift c (colids A) (colids B) (nnz A) CA ltac:(lia)) as (b2 & -> & B2). exists b2. split; [reflexivity|]. rewrite B2.
      split; [intros H; split; [apply B1; reflexivity|exact H]|tauto]. }
    rewrite X4, X5, Y4, Y5 in *. destruct (i_zerobased X), (i_zerobased Y); cbn [eqb negb].
    - eapply Fin; reflexivity.
    - rewrite Er, <- LB, (shift_minus w _ Y7), LB. cbn [bind]. rewrite En, <- CB, (shift_minus w _ Y8), CB. cbn [bind].
      rewrite <- Er, <- En.
      destruct (eqIdx_shift 0 (rowptr B) (rowptr A) (rows A + 1) ltac:(lia) LA) as (b1 & -> & B1). cbn [bind].
      destruct b1; [|exists false; split; [reflexivity|]; split; [discriminate|intros [H _]; apply B1; congruence]].
      destruct (eqIdx_shift 0 (colids B) (colids A) (nnz A) ltac:(lia) CA) as (b2 & -> & B2). exists b2. split; [reflexivity|]. rewrite B2.
      split; [intros H; split; [symmetry; apply B1; reflexivity|congruence]|intros [_ H]; congruence].
    - rewrite <- LA, (shift_minus w _ X7), LA. cbn [bind]. rewrite <- CA, (shift_minus w _ X8), CA. cbn [bind]. eapply Fin; reflexivity.
    - eapply Fin; reflexivity. }
  destruct HI as (b & -> & HI). cbn [bind]. destruct b.
  2:{ exists false. split; [reflexivity|]. split; [discriminate|]. intros (_ & _ & H). apply HI. apply AR in H. tauto. }
  rewrite X6, Y6. pose proof (wf_values A HA) as VA. pose proof (wf_values B HB) as VB.
  destruct (stdEqual_full tol (values A) (values B) ltac:(lia)) as (b3 & B3 & B3').
  rewrite VA in B3. exists b3. split; [exact B3|]. rewrite B3'. split.
  - intros H. split; [exact Er|]. split; [exact Ec|]. apply AR. split; [exact En|]. split; [apply HI; reflexivity|]. split; [apply HI; reflexivity|exact H].
  - intros (_ & _ & H). apply AR in H. tauto.
Qed.

(** With an exact comparison of the values the operator decides whether the two are the same matrix, stored in the same order. *)
Theorem C62_exact (w : N) (tol : V -> V -> bool) (X Y : csrI V) (A B : csr V) : (forall x y, tol x y = true <-> x = y) ->
  holds w X A -> holds w Y B -> wf A -> wf B -> (eqCsr (fun x y => Ok (tol x y)) w X Y = Ok true <-> A = B).
Proof.
  intros Ht HX HY HA HB. destruct (C62_csr w tol X Y A B HX HY HA HB) as (b & -> & Hb).
  transitivity (same_rows tol A B); [rewrite <- Hb; split; congruence|]. split.
  - intros (Hr & Hc & H). apply wf_ext; [assumption..|]. intros i Hi. specialize (H i Hi).
    induction H as [|[c x] [c' y] l l' [E1 E2] _ IH]; [reflexivity|]. simpl in E1, E2. apply Ht in E2. subst. reflexivity.
  - intros ->. split; [reflexivity|]. split; [reflexivity|]. intros i Hi. apply Forall2_same_length_lookup_2; [reflexivity|].
    intros k x y Hx Hy. rewrite Hx in Hy. injection Hy as ->. split; [reflexivity|apply Ht; reflexivity].
Qed.

(** FINDING.  Two matrices from the default constructor cannot be compared: the first pointer is read through the unset
    array. *)
Theorem C62_default_refuted (w : N) (eqv : V -> V -> res bool) :
  eqCsr eqv w csrI_default csrI_default = Err OutOfBounds /\ eqCsc eqv (mkCsc 0 0 0 [] [] []) (mkCsc 0 0 0 [] [] []) = Err OutOfBounds.
Proof. split; reflexivity. Qed.
End C62.

(** The tolerance for doubles: equal, or closer than 0.001, or closer than 0.001 of the larger magnitude. *)
Theorem C62_double (a b : Q) :
  tolDouble (Some a) (Some b) = Ok true <->
    (a == b \/ Qabs (a - b) < 1 # 1000 \/ Qabs (a - b) < (1 # 1000) * Qabs a \/ Qabs (a - b) < (1 # 1000) * Qabs b)%Q.
Proof.
  unfold tolDouble, deq, dlt, dabs, dop, dmax, dlt. destruct (Qeq_bool a b) eqn:E.
  { apply Qeq_bool_iff in E. split; [intros _; left; exact E|reflexivity]. }
  assert (Hne : ~ (a == b)%Q) by (intros H; apply Qeq_bool_iff in H; congruence).
  assert (L : forall x y, negb (Qle_bool y x) = true <-> (x < y)%Q).
  { intros x y. rewrite negb_true_iff. split.
    - intros H. apply Qnot_le_lt. intros H2. apply Qle_bool_iff in H2. congruence.
    - intros H. destruct (Qle_bool y x) eqn:F; [|reflexivity]. apply Qle_bool_iff in F. exfalso. apply (Qlt_not_le _ _ H F). }
  assert (D : forall m, (0 < m)%Q -> (Qabs (a - b) / m < 1 # 1000 <-> Qabs (a - b) < (1 # 1000) * m)%Q).
  { intros m Hm. split; intros H.
    - apply (Qmult_lt_r _ _ m Hm) in H. unfold Qdiv in H. rewrite <- Qmult_assoc, (Qmult_comm (/ m)), Qmult_inv_r, Qmult_1_r in H by (intros F; rewrite F in Hm; discriminate Hm). exact H.
    - apply Qlt_shift_div_r; assumption. }
  split.
  - intros [= H]. apply orb_true_iff in H as [H|H]; [right; left; apply L, H|].
    assert (Hnz : forall x y : Q, ~ (x == y)%Q -> (Qabs x <= Qabs y)%Q -> (0 < Qabs y)%Q).
    { intros x y Hxy Hle. destruct (Qlt_le_dec 0 (Qabs y)) as [|Hy]; [assumption|exfalso]. apply Hxy.
      assert (Hx0 : (Qabs x <= 0)%Q) by (eapply Qle_trans; eassumption).
      apply Qabs_Qle_condition in Hx0 as [? ?]. apply Qabs_Qle_condition in Hy as [? ?]. lra. }
    destruct (negb (Qle_bool (Qabs b) (Qabs a))) eqn:F.
    + cbn iota beta in H. apply L in H. apply L in F. apply D in H; [right; right; right; exact H|]. apply (Hnz a b Hne). apply Qlt_le_weak, F.
    + cbn iota beta in H. apply L in H. apply negb_false_iff, Qle_bool_iff in F. apply D in H; [right; right; left; exact H|]. apply (Hnz b a); [intros G; apply Hne; symmetry; exact G|exact F].
  - intros H. assert (H' : (Qabs (a - b) < 1 # 1000 \/ Qabs (a - b) < (1 # 1000) * Qabs a \/ Qabs (a - b) < (1 # 1000) * Qabs b)%Q) by (destruct H; [contradiction|assumption]).
    clear H. rename H' into H. pose proof (Qabs_nonneg (a - b)) as Hp. f_equal. apply orb_true_iff.
    destruct H as [H|H]; [left; apply L, H|right]. destruct (negb (Qle_bool (Qabs b) (Qabs a))) eqn:F; cbn iota beta; apply L.
    + apply L in F. apply D; [|destruct H; lra]. destruct H; lra.
    + apply negb_false_iff, Qle_bool_iff in F. apply D; [|destruct H; lra]. destruct H; lra.
Qed.

(** A number equals itself, and the order of the two does not matter. *)
Theorem C62_symmetric (a b : Q) : tolDouble (Some a) (Some a) = Ok true /\ tolDouble (Some a) (Some b) = tolDouble (Some b) (Some a).
Proof.
  split; [apply C62_double; left; reflexivity|].
  assert (H : tolDouble (Some a) (Some b) = Ok true <-> tolDouble (Some b) (Some a) = Ok true).
  { rewrite !C62_double, (Qabs_Qminus b a). split; (intros [H|[H|[H|H]]]; [left; symmetry; exact H|right; left; exact H|right; right; right; exact H|right; right; left; exact H]). }
  assert (T : forall x y, exists c, tolDouble x y = Ok c) by (intros x y; unfold tolDouble; destruct (deq x y); eauto).
  destruct (T (Some a) (Some b)) as [[] E1], (T (Some b) (Some a)) as [[] E2]; rewrite E1, E2 in *; try reflexivity;
    exfalso; [assert (F : Ok false = Ok true) by (apply H; reflexivity)|assert (F : Ok false = Ok true) by (apply H; reflexivity)]; discriminate F.
Qed.

(** For integers the comparison is exact, as long as no operation overflows. *)
Theorem C62_int (w : N) (a b : Z) :
  (Z.abs a < 2 ^ (Z.of_N w - 1) -> Z.abs b < 2 ^ (Z.of_N w - 1) -> Z.abs (a - b) < 2 ^ (Z.of_N w - 1) -> tolInt w a b = Ok (a =? b))%Z.
Proof.
  intros Ha Hb Hd. unfold tolInt. destruct (Z.eqb_spec a b) as [->|Hne]; [reflexivity|].
  assert (I : forall z, (Z.abs z < 2 ^ (Z.of_N w - 1))%Z -> inInt w z = Ok z).
  { intros z Hz. unfold inInt. destruct (Z.leb_spec (- 2 ^ (Z.of_N w - 1)) z); [|lia]. destruct (Z.ltb_spec z (2 ^ (Z.of_N w - 1))); [reflexivity|lia]. }
  rewrite I by lia. cbn [bind]. rewrite I by lia. cbn [bind]. destruct (Z.ltb_spec (Z.abs (a - b)) 0); [lia|].
  rewrite !I by lia. cbn [bind]. f_equal. apply Z.ltb_ge. apply Z.quot_pos; [lia|]. destruct (Z.abs a <? Z.abs b)%Z eqn:E; lia.
Qed.

(** FINDING.  The difference of two ints of opposite sign may overflow. *)
Theorem C62_int_overflow_refuted : tolInt 32 2147483647 (-1) = Err OutOfBounds /\ tolInt 32 (-2147483648) 0 = Err OutOfBounds.
Proof. split; reflexivity. Qed.

(** A matrix with one entry. *)
Definition eqOne (x : dbl) : csc dbl := mkCsc 1 1 1 [0; 1] [0] [x].
(** FINDING.  With the tolerance the operator is no equivalence: 0, 0.0009 and 0.0018. *)
Theorem C62_transitive_refuted : exists X Y Z : csc dbl, wf_csc X /\ wf_csc Y /\ wf_csc Z /\
  eqCsc tolDouble X Y = Ok true /\ eqCsc tolDouble Y Z = Ok true /\ eqCsc tolDouble X Z = Ok false.
Proof.
  exists (eqOne (Some 0%Q)), (eqOne (Some (9 # 10000)%Q)), (eqOne (Some (18 # 10000)%Q)).
  split_and!; try (unfold wf_csc, csc_tr, eqOne; cbn; prove_wf); reflexivity.
Qed.
(** FINDING.  A matrix with a NaN is not equal to itself. *)
Theorem C62_nan_refuted : wf_csc (eqOne None) /\ eqCsc tolDouble (eqOne None) (eqOne None) = Ok false.
Proof. split; [unfold wf_csc, csc_tr, eqOne; cbn; prove_wf|reflexivity]. Qed.

(** The same entries in another order inside a row, one-based and zero-based. *)
Definition eqA : csr Z := mkCsr 2 4 3 [0; 2; 3] [1; 3; 0] [5; 7; 9]%Z.
Definition eqA' : csr Z := mkCsr 2 4 3 [0; 2; 3] [3; 1; 0] [7; 5; 9]%Z.
Definition eqX : csrI Z := mkCsrI 2 4 3 [0; 2; 3]%N [1; 3; 0]%N [5; 7; 9]%Z true.
Definition eqX1 : csrI Z := mkCsrI 2 4 3 [1; 3; 4]%N [2; 4; 1]%N [5; 7; 9]%Z false.
Definition eqX' : csrI Z := mkCsrI 2 4 3 [0; 2; 3]%N [3; 1; 0]%N [7; 5; 9]%Z true.
Example C62_inputs : wf eqA /\ wf eqA' /\ holds 32 eqX eqA /\ holds 32 eqX1 eqA /\ holds 32 eqX' eqA' /\
  eqCsr (tolInt 32) 32 eqX eqX1 = Ok true /\ eqCsr (tolInt 32) 32 eqX1 eqX = Ok true /\ eqCsr (tolInt 32) 32 eqX1 eqX1 = Ok true.
Proof.
  split_and!; try prove_wf; try reflexivity; constructor; try reflexivity; (split; repeat constructor).
Qed.
(** FINDING.  The operator compares what is stored, not the matrices: it depends on the order of the entries of a row (which
    shuffleIds changes). *)
Theorem C62_order_refuted : (forall i, row_entries eqA' i ≡ₚ row_entries eqA i) /\
  shuffleCsr false (fromList [1; 1; 0]) eqA = Ok eqA' /\ eqCsr (tolInt 32) 32 eqX eqX' = Ok false.
Proof.
  split; [|split; vm_compute; reflexivity]. intros [|[|[|i]]]; cbn; try reflexivity; apply Permutation_swap.
Qed.

Print Assumptions C62_csc.
Print Assumptions C62_csr.
Print Assumptions C62_exact.
Print Assumptions C62_default_refuted.
Print Assumptions C62_double.
Print Assumptions C62_symmetric.
Print Assumptions C62_int.
Print Assumptions C62_int_overflow_refuted.
Print Assumptions C62_transitive_refuted.
Print Assumptions C62_nan_refuted.
Print Assumptions C62_order_refuted.
