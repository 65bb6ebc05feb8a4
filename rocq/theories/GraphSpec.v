(** Graphs as matrix patterns: what the graph programs are meant to compute. *)
From Coq Require Export ZArith.
From Verif Require Export Base Spec.

(** A square matrix with n rows, column indices ascending in each row. *)
Definition good {V} (n : nat) (T : csr V) : Prop := wf T /\ sorted_rows T /\ rows T = n /\ cols T = n.
(** There is an entry at (i, j). *)
Definition edge {V} (T : csr V) (i j : nat) : Prop := i < rows T /\ j ∈ row_cols T i.
(** Every edge has at least s vertices joined to both ends by edges of the relation. *)
Definition trussed (s : nat) (E : nat -> nat -> Prop) : Prop :=
  forall i j, E i j -> exists ws, NoDup ws /\ length ws = s /\ forall w, w ∈ ws -> E i w /\ E w j.
(** E is the largest sub-relation of E0 in which every edge has at least s such vertices. *)
Definition largest_trussed (s : nat) (E0 E : nat -> nat -> Prop) : Prop :=
  (forall i j, E i j -> E0 i j) /\ trussed s E /\
  forall S : nat -> nat -> Prop, (forall i j, S i j -> E0 i j) -> trussed s S -> forall i j, S i j -> E i j.
Definition symmetric_rel (E : nat -> nat -> Prop) : Prop := forall i j, E i j -> E j i.
