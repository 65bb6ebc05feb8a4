(** Proofs about EqModel. *)
From Verif Require Import BaseProofs Assemble EqModel.
From Coq Require Import QArith.
Close Scope Q_scope.
From Verif Require Import Base Spec.

Lemma stdEqual_ok {A} (eqv : A -> A -> bool) n i p q : i + n <= length p -> i + n <= length q ->
  exists b, stdEqual (fun x y => Ok (eqv x y)) n i p q = Ok b /\
    (b = true <-> forall k x y, i <= k < i + n -> p !! k = Some x -> q !! k = Some y -> eqv x y = true).
Proof.
  revert i. induction n as [|n IH]; intros i Hp Hq; [exists true; split; [reflexivity|]; split; [intros _ k; lia|auto]|].
  destruct (lookup_lt_is_Some_2 p i ltac:(lia)) as [x Hx]. destruct (lookup_lt_is_Some_2 q i ltac:(lia)) as [y Hy].
  cbn [stdEqual]. rewrite (get_Some _ _ _ Hx), (get_Some _ _ _ Hy). cbn [bind]. destruct (eqv x y) eqn:E.
  - destruct (IH (i + 1) ltac:(lia) ltac:(lia)) as (b & Hb & Hi). exists b. split; [exact Hb|]. rewrite Hi. split.
    + intros H k x' y' Hk Hx' Hy'. destruct (decide (k = i)) as [->|]; [congruence|]. apply (H k); [lia|assumption..].
    + intros H k x' y' Hk. apply H. lia.
  - exists false. split; [reflexivity|]. split; [discriminate|]. intros H. rewrite <- E. apply (H i); [lia|assumption..].
Qed.
Lemma stdEqual_full {A} (eqv : A -> A -> bool) p q : length p = length q ->
  exists b, stdEqual (fun x y => Ok (eqv x y)) (length p) 0 p q = Ok b /\ (b = true <-> Forall2 (fun x y => eqv x y = true) p q).
Proof.
  intros H. destruct (stdEqual_ok eqv (length p) 0 p q ltac:(lia) ltac:(lia)) as (b & Hb & Hi). exists b. split; [exact Hb|]. rewrite Hi. split.
  - intros G. apply Forall2_same_length_lookup_2; [exact H|]. intros k x y Hx Hy. apply (G k); [|assumption..]. apply lookup_lt_Some in Hx. lia.
  - intros G k x y Hk Hx Hy. exact (Forall2_lookup_lr _ _ _ _ _ _ G Hx Hy).
Qed.
Lemma stdEqual_eq {A} (eqb : A -> A -> bool) (He : forall x y, eqb x y = true <-> x = y) p q n : length p = n -> length q = n ->
  exists b, stdEqual (fun x y => Ok (eqb x y)) n 0 p q = Ok b /\ (b = true <-> p = q).
Proof.
  intros <- Hq. destruct (stdEqual_full eqb p q ltac:(lia)) as (b & Hb & Hi). exists b. split; [exact Hb|]. rewrite Hi. split.
  - intros G. apply Forall2_eq_1_L || (clear -G He; induction G as [|x y p q H _ IH]; [reflexivity|]; f_equal; [apply He, H|exact IH]).
  - intros ->. clear -He. induction q as [|x q IH]; constructor; [apply He; reflexivity|exact IH].
Qed.

Section Rows.
Context {V : Type} (tol : V -> V -> bool).
(** The arrays agree iff the rows do. *)
Lemma arrays_rows (A B : csr V) : wf A -> wf B -> rows A = rows B -> 
  (nnz A = nnz B /\ rowptr A = rowptr B /\ colids A = colids B /\ Forall2 (fun x y => tol x y = true) (values A) (values B) <->
   forall i, i < rows A -> Forall2 (fun e e' => fst e = fst e' /\ tol (snd e) (snd e') = true) (row_entries A i) (row_entries B i)).
Proof.
  intros HA HB Hr. split.
  - intros (Hn & Hp & Hc & Hv) i Hi.
    destruct (row_bounds_wf A i HA Hi) as (b & e & Hb & He & _).
    rewrite (row_entries_eq A i b e Hb He). rewrite Hp in Hb, He. rewrite (row_entries_eq B i b e Hb He).
    apply Forall2_take, Forall2_drop. rewrite Hc.
    assert (HL : length (colids B) = length (values B)) by (rewrite (wf_colids B HB), (wf_values B HB); reflexivity).
    pose proof (Forall2_length _ _ _ Hv) as HL2. clear -Hv HL. revert HL. generalize (colids B) as l.
    induction Hv as [|x y l1 l2 H _ IH]; intros [|c l] Hl; simpl in *; try discriminate; constructor; [split; [reflexivity|exact H]|apply IH; lia].
  - intros H.
    assert (F1 : forall i, i < rows A -> fst <$> row_entries A i = fst <$> row_entries B i).
    { intros i Hi. specialize (H i Hi). induction H as [|e e' l l' [E _] _ IH]; [reflexivity|]. rewrite !fmap_cons, E, IH. reflexivity. }
    destruct (assemble_pattern (row_entries A) (row_entries B) (rows A) (cols A) F1) as (P1 & P2 & P3).
    pose proof (wf_assemble A HA) as EA. pose proof (wf_assemble B HB) as EB. rewrite <- Hr in EB.
    split_and!.
    + rewrite EA, EB. exact P1.
    + rewrite EA, EB. exact P2.
    + rewrite EA, EB. exact P3.
    + rewrite EA, EB. cbn [assemble values].
      assert (G : forall n, n <= rows A -> Forall2 (fun x y => tol x y = true) (snd <$> rowsOf (row_entries A) 0 n) (snd <$> rowsOf (row_entries B) 0 n)).
      { induction n as [|n IHn]; intros Hn; [constructor|]. rewrite !rowsOf_S by lia. rewrite !fmap_app. apply Forall2_app; [apply IHn; lia|].
        apply Forall2_fmap. eapply Forall2_impl; [apply H; lia|]. intros e e' [_ E]. exact E. }
      apply G. lia.
Qed.
End Rows.

Section Csc.
Context {V : Type} (tol : V -> V -> bool).
Lemma eqCsc_ok (X Y : csc V) : wf_csc X -> wf_csc Y ->
  exists b, eqCsc (fun x y => Ok (tol x y)) X Y = Ok b /\
    (b = true <-> c_rows X = c_rows Y /\ c_cols X = c_cols Y /\
       forall j, j < c_cols X -> Forall2 (fun e e' => fst e = fst e' /\ tol (snd e) (snd e') = true) (col_entries X j) (col_entries Y j)).
Proof.
  intros HX HY. unfold eqCsc.
  assert (Dn : c_cols X = c_cols Y -> (forall j, j < c_cols X -> Forall2 (fun e e' => fst e = fst e' /\ tol (snd e) (snd e') = true) (col_entries X j) (col_entries Y j)) -> c_nnz X = c_nnz Y).
  { intros Hc H. apply (proj2 (arrays_rows tol (csc_tr X) (csc_tr Y) HX HY Hc) H). }
  destruct (Nat.eqb_spec (c_nnz X) (c_nnz Y)) as [En|En]; cbn [negb orb].
  2:{ exists false. split; [reflexivity|]. split; [discriminate|]. intros (_ & Hc & H). destruct (En (Dn Hc H)). }
  destruct (Nat.eqb_spec (c_rows X) (c_rows Y)) as [Er|Er]; cbn [negb orb].
  2:{ exists false. split; [reflexivity|]. split; [discriminate|]. intros (Hr & _). destruct (Er Hr). }
  destruct (Nat.eqb_spec (c_cols X) (c_cols Y)) as [Ec|Ec]; cbn [negb orb].
  2:{ exists false. split; [reflexivity|]. split; [discriminate|]. intros (_ & Hc & _). destruct (Ec Hc). }
  pose proof (arrays_rows tol (csc_tr X) (csc_tr Y) HX HY Ec) as AR. cbn [csc_tr rows nnz rowptr colids values] in AR.
  destruct (stdEqual_eq Nat.eqb Nat.eqb_eq (colptr X) (colptr Y) (c_cols X + 1)) as (b1 & -> & B1).
  { exact (wf_len _ HX). } { rewrite Ec. exact (wf_len _ HY). }
  cbn [bind]. destruct b1.
  2:{ cbn [bind]. exists false. split; [reflexivity|]. split; [discriminate|]. intros (_ & _ & H). apply B1. apply AR. exact H. }
  destruct (stdEqual_eq Nat.eqb Nat.eqb_eq (rowids X) (rowids Y) (c_nnz X)) as (b2 & -> & B2).
  { exact (wf_colids _ HX). } { rewrite En. exact (wf_colids _ HY). }
  cbn [bind]. destruct b2.
  2:{ exists false. split; [reflexivity|]. split; [discriminate|]. intros (_ & _ & H). apply B2. apply AR. exact H. }
  pose proof (wf_values _ HX : length (c_values X) = c_nnz X) as V1. pose proof (wf_values _ HY : length (c_values Y) = c_nnz Y) as V2.
  destruct (stdEqual_full tol (c_values X) (c_values Y) ltac:(lia)) as (b3 & B3 & B3').
  rewrite V1 in B3. exists b3. split; [exact B3|]. rewrite B3'. split.
  - intros H. split; [exact Er|]. split; [exact Ec|]. apply AR. split; [exact En|]. split; [apply B1; reflexivity|]. split; [apply B2; reflexivity|exact H].
  - intros (_ & _ & H). apply AR. exact H.
Qed.
End Csc.

Lemma copyMinus1_ok w p : Forall (fun x => 1 <= x < 2 ^ w)%N p -> copyMinus1 w p (length p) = Ok ((fun x => x - 1)%N <$> p).
Proof.
  intros H. unfold copyMinus1.
  destruct (for_inv (fun i tmp => tmp = ((fun x => x - 1)%N <$> take i p) ++ replicate (length p - i) 0%N)
    (fun i tmp => x <- get p i ;; set_ tmp i (wadd w x (2 ^ w - 1))) 0 (length p) (replicate (length p) 0%N)) as (s & -> & ->).
  - lia.
  - rewrite Nat.sub_0_r. reflexivity.
  - intros i s Hi ->. destruct (lookup_lt_is_Some_2 p i ltac:(lia)) as [x Hx]. rewrite (get_Some _ _ _ Hx). cbn [bind].
    rewrite set_Ok by (rewrite app_length, fmap_length, take_length, replicate_length; lia). eexists. split; [reflexivity|].
    rewrite Nat.add_1_r, (take_S_r p i x Hx), fmap_app, <- app_assoc.
    rewrite insert_app_r_alt by (rewrite fmap_length, take_length; lia). rewrite fmap_length, take_length.
    replace (i - i `min` length p) with 0 by lia. replace (length p - i) with (S (length p - S i)) by lia. cbn [replicate].
    f_equal. cbn. f_equal. unfold wadd. apply (Forall_lookup_1 _ _ _ _ H) in Hx.
    replace (x + (2 ^ w - 1))%N with (x - 1 + 1 * 2 ^ w)%N by lia. rewrite N.mod_add by lia. apply N.mod_small. lia.
  - f_equal. rewrite Nat.sub_diag, take_ge, app_nil_r by lia. reflexivity.
Qed.
