(** C32: index-base conversion and sumall. *)
From stdpp Require Import numbers.
From Verif Require Import ParModel IndexModel BaseProofs.
From Verif Require Import Base.
From Coq Require Import QArith.
Close Scope Q_scope.

Lemma transformPlus_ok w (p : list N) n d : n <= length p ->
  transformPlus w p n d = Ok (((fun x => wadd w x d) <$> take n p) ++ drop n p).
Proof.
  intros Hn. unfold transformPlus.
  destruct (for_inv (fun i p' => p' = ((fun x => wadd w x d) <$> take i p) ++ drop i p)
    (fun i p => x <- get p i ;; set_ p i (wadd w x d)) 0 n p) as (r & -> & ->).
  - lia.
  - reflexivity.
  - intros i p' Hi ->. destruct (lookup_lt_is_Some_2 p i) as [x Hx]; [lia|].
    assert (Hl : length ((fun x => wadd w x d) <$> take i p) = i) by (rewrite fmap_length, take_length; lia).
    rewrite (get_Some _ _ x) by (rewrite lookup_app_r by lia; rewrite Hl, Nat.sub_diag, lookup_drop, Nat.add_0_r; exact Hx).
    rewrite bind_Ok. rewrite set_Ok by (rewrite app_length, drop_length, Hl; lia). eexists. split; [reflexivity|].
    rewrite insert_app_r_alt by lia. rewrite Hl, Nat.sub_diag. rewrite (drop_S _ x i Hx). simpl.
    rewrite Nat.add_1_r, (take_S_r _ _ x) by exact Hx. rewrite fmap_app, <- app_assoc. reflexivity.
  - reflexivity.
Qed.

(** The shape of a matrix of the library: row pointers, one column id per entry, all index values
    representable after adding one. *)
Definition shapeI {V} (w : N) (X : csrI V) : Prop :=
  length (i_rowptr X) = N.to_nat (i_rows X) + 1 /\ length (i_colids X) = N.to_nat (i_nnz X) /\
  Forall (fun x => x + 1 < 2 ^ w)%N (i_rowptr X) /\ Forall (fun x => x + 1 < 2 ^ w)%N (i_colids X).

Lemma wadd_one w x : (x + 1 < 2 ^ w)%N -> wadd w x 1 = (x + 1)%N.
Proof. intros H. unfold wadd. apply N.mod_small. lia. Qed.
Lemma wadd_minus w x : (x + 1 < 2 ^ w)%N -> wadd w (x + 1) (2 ^ w - 1) = x.
Proof.
  intros H. unfold wadd. replace (x + 1 + (2 ^ w - 1))%N with (x + 1 * 2 ^ w)%N by lia.
  rewrite N.mod_add by lia. apply N.mod_small. lia.
Qed.

(** C32.  On a zero-based matrix ConvertOneBased adds one to every row pointer and column id and
    nothing else; doing it again changes nothing; ConvertZeroBased then restores the matrix, and
    doing that again changes nothing.  The values are never touched. *)
Theorem C32_round_trip :
  forall V (w : N) (X : csrI V), shapeI w X -> i_zerobased X = true ->
  exists Y, convertOneBased w X = Ok (true, Y) /\
    i_rowptr Y = ((fun x => x + 1)%N <$> i_rowptr X) /\ i_colids Y = ((fun x => x + 1)%N <$> i_colids X) /\
    i_values Y = i_values X /\ i_rows Y = i_rows X /\ i_cols Y = i_cols X /\ i_nnz Y = i_nnz X /\ i_zerobased Y = false /\
    convertOneBased w Y = Ok (false, Y) /\
    convertZeroBased w Y = Ok (false, X) /\
    convertZeroBased w X = Ok (true, X).
Proof.
  intros V w [r c n rp ci va zb] (H1 & H2 & H3 & H4) Hz. simpl in *. subst zb.
  exists (mkCsrI r c n ((fun x => x + 1)%N <$> rp) ((fun x => x + 1)%N <$> ci) va false).
  assert (E : forall p n, length p = n -> Forall (fun x => x + 1 < 2 ^ w)%N p -> transformPlus w p n 1 = Ok ((fun x => x + 1)%N <$> p)).
  { intros p k Hl Hf. rewrite transformPlus_ok by lia. rewrite take_ge, drop_ge, app_nil_r by lia. f_equal.
    apply list_fmap_ext. intros i x Hx. apply wadd_one. rewrite Forall_lookup in Hf. eauto. }
  assert (E' : forall p n, length p = n -> Forall (fun x => x + 1 < 2 ^ w)%N p -> transformPlus w ((fun x => x + 1)%N <$> p) n (2 ^ w - 1) = Ok p).
  { intros p k Hl Hf. rewrite transformPlus_ok by (rewrite fmap_length; lia). rewrite take_ge, drop_ge, app_nil_r by (rewrite fmap_length; lia). f_equal.
    rewrite <- list_fmap_compose. transitivity (id <$> p); [|apply list_fmap_id]. apply list_fmap_ext. intros i x Hx. apply wadd_minus. rewrite Forall_lookup in Hf. eauto. }
  unfold convertOneBased, convertZeroBased. cbn [negb i_zerobased i_rowptr i_colids i_rows i_nnz i_cols i_values].
  rewrite (E rp), bind_Ok, (E ci), bind_Ok by assumption. split; [reflexivity|].
  do 8 (split; [reflexivity|]). split; [|reflexivity].
  rewrite (E' rp), bind_Ok, (E' ci), bind_Ok by assumption. reflexivity.
Qed.
Print Assumptions C32_round_trip.

Example C32_example :
  let X := mkCsrI 3 4 4 [0;2;2;4]%N [0;3;1;2]%N [5;6;7;8]%Z true in
  shapeI 32 X /\ convertOneBased 32 X = Ok (true, mkCsrI 3 4 4 [1;3;3;5]%N [1;4;2;3]%N [5;6;7;8]%Z false).
Proof. cbn zeta. split; [|reflexivity]. repeat split; repeat constructor. Qed.

(** C32: sumall only looks at the values and their number: for integer values and a w-bit accumulator
    there is, whatever the schedule, exactly one result, the sum modulo 2^w. *)
Theorem C32_sumall :
  forall (w : N) (values : list Z) (nz : nat) (r : Z), nz <= length values ->
  (sumall_result 0%Z (stepInt w) (plusInt w) values nz r <-> r = (fold_right Z.add 0 (take nz values) mod 2 ^ Z.of_N w)%Z).
Proof.
  intros w values nz r Hn. set (M := (2 ^ Z.of_N w)%Z). assert (HM : (0 < M)%Z) by (apply Z.pow_pos_nonneg; lia).
  set (at_ := fun i => default 0%Z (values !! i)).
  set (sumZ := fold_right Z.add 0%Z).
  assert (Happ : forall a b, sumZ (a ++ b) = (sumZ a + sumZ b)%Z) by (induction a as [|x a IH]; intros b; simpl; [reflexivity|rewrite IH; lia]).
  assert (Hperm : forall a b, a ≡ₚ b -> sumZ a = sumZ b) by (induction 1; simpl; lia).
  assert (Ht : forall its acc, Forall (fun i => i < nz) its ->
    foldM (fun acc i => v <- get values i ;; Ok (stepInt w acc v)) its (acc mod M)%Z = Ok ((acc + sumZ (at_ <$> its)) mod M)%Z).
  { induction its as [|i its IH]; intros acc Hf; [simpl; f_equal; f_equal; lia|]. inversion Hf as [|? ? Hi Hf']; subst.
    destruct (lookup_lt_is_Some_2 values i) as [v Hv]; [lia|]. cbn [foldM]. rewrite (get_Some _ _ _ Hv), !bind_Ok.
    unfold stepInt. fold M. rewrite Z.add_mod_idemp_l by lia. rewrite IH by exact Hf'. rewrite fmap_cons. simpl. unfold at_ at 2. rewrite Hv. simpl.
    f_equal. f_equal. lia. }
  assert (Hto : forall ord acc, fold_left (plusInt w) ord (acc mod M)%Z = ((acc + sumZ ord) mod M)%Z).
  { induction ord as [|s ord IH]; intros acc; [simpl; f_equal; lia|]. cbn [fold_left]. unfold plusInt at 2. fold M. rewrite Z.add_mod_idemp_l by lia.
    rewrite IH. simpl. f_equal. lia. }
  assert (Hsums : forall asg sums, Forall (Forall (fun i => i < nz)) asg -> Forall2 (fun its s => threadSum 0%Z (stepInt w) values its = Ok s) asg sums ->
    (sumZ sums mod M)%Z = (sumZ (at_ <$> mjoin asg) mod M)%Z).
  { intros asg sums Hf H2. induction H2 as [|its s asg sums H2 _ IH]; [reflexivity|]. inversion Hf as [|? ? Hf1 Hf2]; subst.
    unfold threadSum in H2. change 0%Z with (0 mod M)%Z in H2 at 1. rewrite Ht in H2 by exact Hf1. injection H2 as <-.
    rewrite mjoin_cons, fmap_app, Happ. simpl. rewrite Zplus_mod, IH by exact Hf2. rewrite Zmod_mod, <- Zplus_mod. f_equal. }
  assert (Hseq : at_ <$> seq 0 nz = take nz values).
  { apply list_eq. intros i. rewrite list_lookup_fmap. destruct (decide (i < nz)).
    - rewrite lookup_seq_lt by lia. simpl. rewrite lookup_take by lia. unfold at_. destruct (lookup_lt_is_Some_2 values i) as [v Hv]; [lia|]. rewrite Hv. reflexivity.
    - rewrite lookup_seq_ge by lia. rewrite lookup_take_ge by lia. reflexivity. }
  split.
  - intros (asg & ord & sums & Hs & H2 & Hp & ->).
    change 0%Z with (0 mod M)%Z at 1. rewrite Hto. rewrite (Hperm _ _ Hp). rewrite Z.add_0_l. rewrite (Hsums asg sums).
    + f_equal. rewrite <- Hseq. apply Hperm. rewrite Hs. reflexivity.
    + apply Forall_forall. intros its Hits. apply Forall_forall. intros i Hi.
      assert (Hin : i ∈ mjoin asg) by (apply elem_of_list_join; eauto). rewrite Hs in Hin. apply elem_of_seq in Hin. lia.
    + exact H2.
  - intros ->. exists [seq 0 nz], [(sumZ (take nz values) mod M)%Z], [(sumZ (take nz values) mod M)%Z].
    split; [unfold schedule; simpl; rewrite app_nil_r; reflexivity|]. split; [|split; [reflexivity|]].
    + constructor; [|constructor]. unfold threadSum. change 0%Z with (0 mod M)%Z at 1. rewrite Ht by (apply Forall_forall; intros i Hi; apply elem_of_seq in Hi; lia).
      rewrite Hseq. reflexivity.
    + simpl. unfold plusInt. fold M. rewrite Z.add_0_l, Zmod_mod. reflexivity.
Qed.
Print Assumptions C32_sumall.
Example C32_sumall_example : sumall_result 0%Z (stepInt 8) (plusInt 8) [200; 100; 7]%Z 3 51%Z.
Proof. apply C32_sumall; [simpl; lia|reflexivity]. Qed.

(** Finding: for fractional values the accumulator of the index type truncates at every step.  The
    result is not the sum, and it depends on the schedule. *)
Theorem C32_sumall_fractional_refuted :
  sumall_result 0%Z stepQ Z.add [1#2; 1#2]%Q 2 0%Z /\ (fold_right Qplus 0 [1#2; 1#2]== 1)%Q /\
  sumall_result 0%Z stepQ Z.add [3#2; -1#2]%Q 2 0%Z /\ sumall_result 0%Z stepQ Z.add [3#2; -1#2]%Q 2 1%Z.
Proof.
  split; [|split; [reflexivity|split]].
  - exists [[0;1]], [0%Z], [0%Z]. split; [unfold schedule; reflexivity|]. split; [repeat constructor|]. split; reflexivity.
  - exists [[0;1]], [0%Z], [0%Z]. split; [unfold schedule; reflexivity|]. split; [repeat constructor|]. split; reflexivity.
  - exists [[0];[1]], [1%Z; 0%Z], [1%Z; 0%Z]. split; [unfold schedule; reflexivity|]. split; [repeat constructor|]. split; reflexivity.
Qed.
Print Assumptions C32_sumall_fractional_refuted.

(** Finding: on a default-constructed matrix ConvertOneBased writes through the unset row pointer. *)
Theorem C32_default_matrix_refuted :
  forall V w, convertOneBased w (csrI_default (V := V)) = Err OutOfBounds.
Proof. reflexivity. Qed.
Print Assumptions C32_default_matrix_refuted.
