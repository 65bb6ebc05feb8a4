(** Proofs about the loops of the R-MAT generator. *)
From stdpp Require Import numbers.
From Verif Require Import MatModel BaseProofs ConcProofs WorkProofs MatProofs ConvProofs GtModel GtSpec GtProofs RmatModel RmatSpec RmatProofs.
From Verif Require Import Base Spec.

Section Rmat.
Context {D : Type} (fadd fsub fmul fdiv : D -> D -> D) (fltb : D -> D -> bool) (f005 f05 : D) (s1 s3 s4 : nat -> D).
Notation params := (D * D * D * D)%type.
Notation edgeOf := (edgeOf fadd fsub fmul fdiv fltb f005 f05 s1 s3 s4).
Notation quadAt := (quadAt fadd fsub fmul fdiv fltb f005 f05 s1 s3 s4).
Notation parAt := (parAt fadd fsub fmul fdiv fltb f005 f05 s3 s4).
Notation accepted := (accepted fadd fsub fmul fdiv fltb f005 f05 s1 s3 s4).
Notation levels := (levels fadd fsub fmul fdiv fltb f005 f05 s1 s3 s4).
Notation edgeLoop := (edgeLoop fadd fsub fmul fdiv fltb f005 f05 s1 s3 s4).

Lemma choose_ok p t x u v step : choosePartition fadd fltb s1 (mkGen p t x) u v step =
  (mkGen p (t + 1) x, u + fst (quad fadd fltb (s1 t) p) * step, v + snd (quad fadd fltb (s1 t) p) * step).
Proof.
  unfold choosePartition, quad. cbn [par d1 d34]. destruct p as [[[a b] c] d].
  repeat match goal with |- context [if ?b then _ else _] => destruct b end; cbn [fst snd]; f_equal; try f_equal; lia.
Qed.
Lemma vary_ok p t x : varyParams fadd fsub fmul fdiv fltb f005 f05 s3 s4 (mkGen p t x) = mkGen (nextPar fadd fsub fmul fdiv fltb f005 f05 s3 s4 p x) t (x + 4).
Proof.
  unfold varyParams, nextPar, moved. cbn [par d1 d34]. destruct p as [[[a b] c] d].
  destruct (fltb f05 (s4 (x + 1))); repeat match goal with |- context [if ?b then _ else _] => destruct b end; reflexivity.
Qed.

Lemma step_pos n l : l < Nat.log2 n -> 1 <= n / 2 ^ (l + 1).
Proof.
  intros H. assert (Hn : 0 < n) by (destruct (Nat.eq_dec n 0) as [E0|E0]; [subst n; change (Nat.log2 0) with 0 in H|]; lia). destruct (Nat.log2_spec n Hn) as [H1 _].
  apply Nat.div_le_lower_bound; [apply Nat.pow_nonzero; discriminate|]. rewrite Nat.mul_1_r. etransitivity; [|exact H1]. apply Nat.pow_le_mono_r; lia.
Qed.
Lemma step_zero n : n / 2 ^ (Nat.log2 n + 1) = 0.
Proof.
  destruct n as [|n]; [apply Nat.div_0_l, Nat.pow_nonzero; lia|]. apply Nat.div_small. rewrite Nat.add_1_r. apply Nat.log2_spec. lia.
Qed.
Lemma step_half n l : n / 2 ^ (l + 1) / 2 = n / 2 ^ (l + 1 + 1).
Proof. rewrite Nat.div_div by (try apply Nat.pow_nonzero; lia). f_equal. rewrite (Nat.pow_add_r 2 (l + 1) 1). simpl. lia. Qed.

Lemma levels_ok n p0 k : forall j l fuel u v, l + j = Nat.log2 n -> j < fuel ->
  levels fuel (mkGen (parAt p0 (k * Nat.log2 n) l) (k * Nat.log2 n + l) (4 * (k * Nat.log2 n + l))) u v (n / 2 ^ (l + 1)) =
  Ok (mkGen (parAt p0 (k * Nat.log2 n) (Nat.log2 n)) (k * Nat.log2 n + Nat.log2 n) (4 * (k * Nat.log2 n + Nat.log2 n)),
    u + sum_list ((fun l => fst (quadAt n p0 k l) * (n / 2 ^ (l + 1))) <$> seq l j),
    v + sum_list ((fun l => snd (quadAt n p0 k l) * (n / 2 ^ (l + 1))) <$> seq l j)).
Proof.
  induction j as [|j IH]; intros l fuel u v Hl Hf; (destruct fuel as [|fuel]; [lia|]); cbn [RmatModel.levels].
  - assert (l = Nat.log2 n) as -> by lia. rewrite step_zero. simpl. rewrite !Nat.add_0_r. reflexivity.
  - destruct (Nat.leb_spec 1 (n / 2 ^ (l + 1))) as [_|H]; [|pose proof (step_pos n l ltac:(lia)); lia].
    rewrite choose_ok, vary_ok, step_half. fold (quadAt n p0 k l).
    replace (k * Nat.log2 n + l + 1) with (k * Nat.log2 n + (l + 1)) by lia.
    replace (4 * (k * Nat.log2 n + l) + 4) with (4 * (k * Nat.log2 n + (l + 1))) by lia.
    change (nextPar fadd fsub fmul fdiv fltb f005 f05 s3 s4 (parAt p0 (k * Nat.log2 n) l) (4 * (k * Nat.log2 n + l))) with (parAt p0 (k * Nat.log2 n) (S l)).
    replace (S l) with (l + 1) by lia. rewrite IH by lia. cbn [seq]. rewrite !fmap_cons. simpl sum_list. replace (S l) with (l + 1) by lia. f_equal. f_equal; [f_equal|]; lia.
Qed.

Lemma log2_le n : Nat.log2 n <= n.
Proof. destruct n as [|n]; [reflexivity|]. pose proof (Nat.log2_lt_lin (S n)). lia. Qed.

Lemma attempt_ok n p0 k (p : params) :
  levels (n + 1) (mkGen p0 (k * Nat.log2 n) (4 * (k * Nat.log2 n))) 1 1 (n / 2) =
  Ok (mkGen (parAt p0 (k * Nat.log2 n) (Nat.log2 n)) (S k * Nat.log2 n) (4 * (S k * Nat.log2 n)), 1 + fst (edgeOf n p0 k), 1 + snd (edgeOf n p0 k)).
Proof.
  pose proof (levels_ok n p0 k (Nat.log2 n) 0 (n + 1) 1 1 ltac:(lia)) as H. rewrite !Nat.add_0_r in H. simpl parAt in H. change (2 ^ (0 + 1)) with 2 in H.
  rewrite H by (pose proof (log2_le n); lia). unfold RmatSpec.edgeOf. cbn [fst snd].
  replace (S k * Nat.log2 n) with (k * Nat.log2 n + Nat.log2 n) by (simpl; lia). reflexivity.
Qed.

(** Range of the vertices. *)
Lemma steps_sum n (f : nat -> nat) j : (forall l, f l <= 1) -> sum_list ((fun l => f l * (n / 2 ^ (l + 1))) <$> seq 0 j) + n / 2 ^ j <= n.
Proof.
  intros Hf. induction j as [|j IH]; [change (2 ^ 0) with 1; rewrite Nat.div_1_r; simpl; lia|]. rewrite seq_S, fmap_app, sum_list_app. simpl sum_list. rewrite Nat.add_0_r.
  replace (S j) with (j + 1) by lia. assert (2 * (n / 2 ^ (j + 1)) <= n / 2 ^ j).
  { rewrite Nat.pow_add_r, <- Nat.div_div by (try apply Nat.pow_nonzero; simpl; lia). change (2 ^ 1) with 2. apply Nat.mul_div_le. lia. }
  specialize (Hf (0 + j)). simpl in *. nia.
Qed.
Lemma quad_le p q : fst (quad fadd fltb p q) <= 1 /\ snd (quad fadd fltb p q) <= 1.
Proof.
  unfold quad. destruct q as [[[a b] c] d]. repeat match goal with |- context [if ?b then _ else _] => destruct b end; simpl; lia.
Qed.
Lemma edgeOf_lt n p0 k : 0 < n -> fst (edgeOf n p0 k) < n /\ snd (edgeOf n p0 k) < n.
Proof.
  intros Hn. assert (1 <= n / 2 ^ Nat.log2 n) by (apply Nat.div_le_lower_bound; [apply Nat.pow_nonzero; lia|rewrite Nat.mul_1_r; apply Nat.log2_spec, Hn]).
  pose proof (steps_sum n (fun l => fst (quadAt n p0 k l)) (Nat.log2 n) (fun l => proj1 (quad_le _ _))).
  pose proof (steps_sum n (fun l => snd (quadAt n p0 k l)) (Nat.log2 n) (fun l => proj2 (quad_le _ _))).
  unfold RmatSpec.edgeOf. cbn [fst snd]. lia.
Qed.

Lemma accepted_S n p0 k : accepted n p0 (S k) = accepted n p0 k ++ (if decide (fst (edgeOf n p0 k) <> snd (edgeOf n p0 k)) then [edgeOf n p0 k] else []).
Proof. unfold RmatSpec.accepted. rewrite seq_S, fmap_app, filter_app. simpl. rewrite filter_cons, filter_nil. reflexivity. Qed.

Definition vars (n : nat) (p0 : params) (k : nat) : params := match k with 0 => p0 | S k' => parAt p0 (k' * Nat.log2 n) (Nat.log2 n) end.
Definition genAt (n : nat) (p0 : params) (k : nat) : gen := mkGen (vars n p0 k) (k * Nat.log2 n) (4 * (k * Nat.log2 n)).

(** One round of the loop over the edges. *)
Lemma round_ok fuel n m p0 k i S E : i < m -> i < length S -> i < length E ->
  edgeLoop (1 + fuel) n m p0 (genAt n p0 k) i S E =
  if decide (fst (edgeOf n p0 k) <> snd (edgeOf n p0 k)) then
    edgeLoop fuel n m p0 (genAt n p0 (1 + k)) (i + 1) (<[i := fst (edgeOf n p0 k)]> S) (<[i := snd (edgeOf n p0 k)]> E)
  else edgeLoop fuel n m p0 (genAt n p0 (1 + k)) i S E.
Proof.
  intros Hi HS HE. cbn [RmatModel.edgeLoop Nat.add]. destruct (Nat.ltb_spec i m) as [_|]; [|lia]. unfold genAt at 1 2. cbn [d1 d34]. rewrite (attempt_ok n p0 k p0), bind_Ok.
  change (mkGen (parAt p0 (k * Nat.log2 n) (Nat.log2 n)) (Datatypes.S k * Nat.log2 n) (4 * (Datatypes.S k * Nat.log2 n))) with (genAt n p0 (Datatypes.S k)).
  destruct (Nat.eqb_spec (1 + fst (edgeOf n p0 k)) (1 + snd (edgeOf n p0 k))) as [H|H].
  - rewrite decide_False by lia. reflexivity.
  - rewrite decide_True by lia. rewrite !Nat.add_sub_swap, Nat.sub_diag, !Nat.add_0_l by lia. rewrite set_Ok by exact HS. rewrite bind_Ok, set_Ok by exact HE. rewrite bind_Ok. reflexivity.
Qed.

Lemma insert_next {A} (l junk : list A) x : length l < length junk -> <[length l := x]> (l ++ drop (length l) junk) = (l ++ [x]) ++ drop (length (l ++ [x])) junk.
Proof.
  intros H. rewrite insert_app_r_alt, Nat.sub_diag by lia. destruct (lookup_lt_is_Some_2 junk (length l) H) as [z Hz]. rewrite (drop_S _ z _ Hz). simpl.
  rewrite <- app_assoc, app_length. simpl. rewrite Nat.add_1_r. reflexivity.
Qed.

Lemma edgeLoop_ok n p0 (junk : list nat) : forall fuel k, length (accepted n p0 k) <= length junk ->
  let m := length junk in
  let S := (fst <$> accepted n p0 k) ++ drop (length (accepted n p0 k)) junk in
  let E := (snd <$> accepted n p0 k) ++ drop (length (accepted n p0 k)) junk in
  edgeLoop fuel n m p0 (genAt n p0 k) (length (accepted n p0 k)) S E = Err OutOfFuel \/
  exists K, k <= K /\ length (accepted n p0 K) = m /\ edgeLoop fuel n m p0 (genAt n p0 k) (length (accepted n p0 k)) S E =
    Ok (genAt n p0 K, fst <$> accepted n p0 K, snd <$> accepted n p0 K).
Proof.
  induction fuel as [|fuel IH]; intros k Hk; [left; reflexivity|]. cbv zeta.
  destruct (decide (length (accepted n p0 k) = length junk)) as [He|He].
  - right. exists k. split; [lia|]. split; [exact He|]. cbn [RmatModel.edgeLoop]. destruct (Nat.ltb_spec (length (accepted n p0 k)) (length junk)) as [|_]; [lia|].
    rewrite drop_ge, !app_nil_r by lia. reflexivity.
  - assert (L : forall f : nat * nat -> nat, length (accepted n p0 k) < length ((f <$> accepted n p0 k) ++ drop (length (accepted n p0 k)) junk)) by (intros f; rewrite app_length, fmap_length, drop_length; lia).
    change (Datatypes.S fuel) with (1 + fuel). rewrite round_ok by (try apply L; lia).
    assert (A := accepted_S n p0 k). destruct (decide (fst (edgeOf n p0 k) <> snd (edgeOf n p0 k))) as [Hd|Hd].
    + assert (I : forall f : nat * nat -> nat, <[length (accepted n p0 k) := f (edgeOf n p0 k)]> ((f <$> accepted n p0 k) ++ drop (length (accepted n p0 k)) junk) =
        (f <$> accepted n p0 (Datatypes.S k)) ++ drop (length (accepted n p0 (Datatypes.S k))) junk).
      { intros f. rewrite <- (fmap_length f (accepted n p0 k)). rewrite insert_next by (rewrite fmap_length; lia). rewrite A, fmap_app. rewrite !app_length, fmap_length. reflexivity. }
      rewrite !I. replace (length (accepted n p0 k) + 1) with (length (accepted n p0 (Datatypes.S k))) by (rewrite A, app_length; simpl; lia).
      destruct (IH (Datatypes.S k)) as [H|(K & HK & HL & H)]; [rewrite A, app_length; simpl; lia|left; exact H|right; exists K; split; [lia|]; split; [exact HL|exact H]].
    + rewrite app_nil_r in A. rewrite <- A. destruct (IH (Datatypes.S k)) as [H|(K & HK & HL & H)]; [rewrite A; lia|left; exact H|right; exists K; split; [lia|]; split; [exact HL|exact H]].
Qed.

Lemma edgeLoop_ends n p0 (junk : list nat) : (forall k, exists k', k <= k' /\ fst (edgeOf n p0 k') <> snd (edgeOf n p0 k')) ->
  forall j k, length (accepted n p0 k) + j = length junk ->
  exists fuel r, edgeLoop fuel n (length junk) p0 (genAt n p0 k) (length (accepted n p0 k))
    ((fst <$> accepted n p0 k) ++ drop (length (accepted n p0 k)) junk) ((snd <$> accepted n p0 k) ++ drop (length (accepted n p0 k)) junk) = Ok r.
Proof.
  intros Hinf. induction j as [|j IH]; intros k Hj.
  - exists 1. eexists. cbn [RmatModel.edgeLoop]. destruct (Nat.ltb_spec (length (accepted n p0 k)) (length junk)) as [|_]; [lia|]. reflexivity.
  - destruct (Hinf k) as (k' & Hk' & Hd). remember (k' - k) as g eqn:Hg. revert k Hj Hk' Hg. induction g as [g IHg] using lt_wf_ind. intros k Hj Hk' Hg.
    assert (L : forall f : nat * nat -> nat, length (accepted n p0 k) < length ((f <$> accepted n p0 k) ++ drop (length (accepted n p0 k)) junk)) by (intros f; rewrite app_length, fmap_length, drop_length; lia).
    assert (A := accepted_S n p0 k). destruct (decide (fst (edgeOf n p0 k) <> snd (edgeOf n p0 k))) as [Hd'|Hd'] eqn:Dec.
    + destruct (IH (Datatypes.S k)) as (fuel & r & Hr); [rewrite A, app_length; simpl; lia|]. exists (1 + fuel), r. rewrite round_ok by (try apply L; lia). rewrite Dec.
      assert (I : forall f : nat * nat -> nat, <[length (accepted n p0 k) := f (edgeOf n p0 k)]> ((f <$> accepted n p0 k) ++ drop (length (accepted n p0 k)) junk) =
        (f <$> accepted n p0 (Datatypes.S k)) ++ drop (length (accepted n p0 (Datatypes.S k))) junk).
      { intros f. rewrite <- (fmap_length f (accepted n p0 k)). rewrite insert_next by (rewrite fmap_length; lia). rewrite A, fmap_app. rewrite !app_length, fmap_length. reflexivity. }
      rewrite !I. replace (length (accepted n p0 k) + 1) with (length (accepted n p0 (Datatypes.S k))) by (rewrite A, app_length; simpl; lia). exact Hr.
    + assert (k <> k') by (intros ->; exact (Hd' Hd)). rewrite app_nil_r in A.
      destruct (IHg (k' - Datatypes.S k) ltac:(lia) (Datatypes.S k)) as (fuel & r & Hr); [rewrite A; exact Hj|lia|reflexivity|].
      exists (1 + fuel), r. rewrite round_ok by (try apply L; lia). rewrite Dec. rewrite A in Hr. exact Hr.
Qed.
End Rmat.
