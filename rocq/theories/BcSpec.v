(** Betweenness centrality: what it is, by shortest paths. *)
From Coq Require Export ZArith QArith.Qcanon.
From stdpp Require Export numbers list_numbers.
From Verif Require Export Base Spec.

(** [l] lists the vertices of a walk from [s] to [t] along [E]. *)
Inductive walk (E : nat -> nat -> Prop) : nat -> nat -> list nat -> Prop :=
| walk_at s : walk E s s [s]
| walk_step s u t l : E s u -> walk E u t l -> walk E s t (s :: l).
Definition shortest (E : nat -> nat -> Prop) (s t : nat) (l : list nat) : Prop :=
  walk E s t l /\ forall l', walk E s t l' -> length l <= length l'.
(** There are exactly [m] lists with property [P]. *)
Definition counts (P : list nat -> Prop) (m : nat) : Prop :=
  exists ls, NoDup ls /\ (forall l, l ∈ ls <-> P l) /\ length ls = m.

Definition Qc_of_nat (m : nat) : Qc := Qc_of_Z (Z.of_nat m).
Definition sumQc (l : list Qc) : Qc := foldr Qcplus 0%Qc l.

(** The share of the shortest paths from [s] to [t] on which [v] lies in between; 0 if there are none ([0 / 0] is 0).
    [sp s t]: the number of shortest paths, [spv s t v]: of those through [v]. *)
Definition betweenShare (sp : nat -> nat -> nat) (spv : nat -> nat -> nat -> nat) (s t v : nat) : Qc :=
  if decide (v = s \/ v = t) then 0%Qc else (Qc_of_nat (spv s t v) / Qc_of_nat (sp s t))%Qc.
(** The centrality of [v] as seen from the sources [srcs]. *)
Definition centrality (n : nat) (srcs : list nat) (sp : nat -> nat -> nat) (spv : nat -> nat -> nat -> nat) (v : nat) : Qc :=
  sumQc ((fun s => sumQc ((fun t => betweenShare sp spv s t v) <$> seq 0 n)) <$> srcs).
