(** Vocabulary for the statements about shuffleIds; nothing here refers to the model. *)
From Verif Require Import Base.

(** All lists of length [n] with elements below [b]. *)
Fixpoint tuples (b n : nat) : list (list nat) :=
  match n with
  | O => [[]]
  | S n => mjoin ((fun x => (fun t => x :: t) <$> tuples b n) <$> seq 0 b)
  end.
(** The generator that returns the elements of [t] one after the other (cut at [b] should they exceed it). *)
Definition fromList (t : list nat) (k b : nat) : nat := Nat.min (nth k t 0) b.
(** Every draw lies in the range asked for. *)
Definition in_range (draw : nat -> nat -> nat) : Prop := forall k b, draw k b <= b.
