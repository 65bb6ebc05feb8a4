(** The first values of a product in the order of rows and columns, over the lists of entries of two files. *)
From Coq Require Import ZArith Sorted.
From stdpp Require Import list.
From Verif Require Import IoSpec MainSpec AllMainSpec.
From Verif Require Import Base Spec.
Local Open Scope nat_scope.

(** The position [p] comes before [q]: by rows, then by columns. *)
Definition before (p q : nat * nat) : Prop := fst p < fst q \/ (fst p = fst q /\ snd p < snd q).
(** [vs] are the values of the product at the first positions that have one. *)
Definition first_values {V} (mul add : V -> V -> V) (ofInt : Z -> V) (EA EB : list (nat * nat * Z)) (vs : list V) : Prop :=
  exists ps qs, StronglySorted before (ps ++ qs) /\ (forall x, x ∈ ps ++ qs <-> x ∈ step_pos <$> meeting EA EB) /\
    Forall2 (fun p v => sums add (products_at mul ofInt EA EB (fst p) (snd p)) v) ps vs.
