(** What sample/MaskedSPASpGEMM.cpp prints about the product without a mask, over the lists of entries of its files. *)
From Coq Require Import ZArith.
From stdpp Require Import list.
From Verif Require Import IoSpec MainSpec AllMainSpec.
From Verif Require Import Base Spec.
Local Open Scope nat_scope.

(** The number of positions with a product. *)
Definition product_count (EA EB : list (nat * nat * Z)) (c : nat) : Prop :=
  exists P, NoDup P /\ (forall x, x ∈ P <-> x ∈ step_pos <$> meeting EA EB) /\ length P = c.
(** [R] has the positions with a product, once each, and at each the sum of its products. *)
Definition answerP {V} (mul add : V -> V -> V) (ofInt : Z -> V) (EA EB : list (nat * nat * Z)) (m n : nat) (R : csr V) : Prop :=
  wf R /\ rows R = m /\ cols R = n /\
  (forall i, i < m -> NoDup (row_cols R i)) /\
  (forall i j, i < m /\ j ∈ row_cols R i <-> (i, j) ∈ step_pos <$> meeting EA EB) /\
  forall i j v, i < m -> (j, v) ∈ row_entries R i -> sums add (products_at mul ofInt EA EB i j) v.
(** Values of the product at different positions. *)
Definition some_values {V} (mul add : V -> V -> V) (ofInt : Z -> V) (EA EB : list (nat * nat * Z)) (vs : list V) : Prop :=
  exists ps, NoDup ps /\ Forall2 (fun p v => p ∈ step_pos <$> meeting EA EB /\ sums add (products_at mul ofInt EA EB (fst p) (snd p)) v) ps vs.
