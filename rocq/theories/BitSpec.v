(** Vocabulary for the statements about bit maps. *)
From Verif Require Import Base.

(** Bit [p] of an array of 64-bit words is set. *)
Definition isset (m : list (option N)) (p : nat) : Prop :=
  exists x, m !! (p / 64) = Some (Some x) /\ N.testbit x (N.of_nat (p mod 64)) = true.
(** Every word was written and has 64 bits. *)
Definition ready (m : list (option N)) : Prop := Forall (fun w => exists x, w = Some x /\ (x < 2 ^ 64)%N) m.
