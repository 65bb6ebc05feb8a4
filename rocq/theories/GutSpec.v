(** What the graph programs are given and what they are to answer, independent of the code. *)
From stdpp Require Import gmap.
From Verif Require Export IoSpec GraphSpec.
From Verif Require Import GutModel.
From Verif Require Export Base Spec.
Local Open Scope list_scope.

(** The simple undirected graph of a file: i and j are joined if the file has an entry at (i, j) or (j, i), off the diagonal. *)
Definition file_entry (f : mmfile) (i j : nat) : Prop := exists v, (i, j, v) ∈ means f.
Definition file_arc (f : mmfile) (i j : nat) : Prop := i <> j /\ file_entry f i j.
Definition file_edge (f : mmfile) (i j : nat) : Prop := file_arc f i j \/ file_arc f j i.
(** Its triangles, each once. *)
Definition triangles (E : nat -> nat -> Prop) (ts : list (nat * nat * nat)) : Prop :=
  NoDup ts /\ forall a b c, (a, b, c) ∈ ts <-> a < b /\ b < c /\ E a b /\ E b c /\ E a c.

Section GutSpec.
Context {V : Type}.
(** All entries are inside. *)
Definition gm_wf (A : gm V) : Prop := forall i j v, gm_ent A !! (i, j) = Some v -> i < gm_rows A /\ j < gm_cols A.
(** The number of entries of a row. *)
Definition degree (A : gm V) (i : nat) : nat := length (filter (fun e => fst (fst e) = i) (map_to_list (gm_ent A))).
(** [p] permutes the numbers below [n]. *)
Definition permutes (n : nat) (p : nat -> nat) : Prop :=
  (forall v, v < n -> p v < n) /\ (forall v w, v < n -> w < n -> p v = p w -> v = w).
(** std::sort with std::greater on pairs: a permutation in which no pair is (lexicographically) less than a later one. *)
Definition pair_lt (a b : nat * nat) : Prop := fst a < fst b \/ fst a = fst b /\ snd a < snd b.
Definition sort_greater (srt : list (nat * nat) -> list (nat * nat)) : Prop :=
  forall l, srt l ≡ₚ l /\ StronglySorted (fun a b => ~ pair_lt a b) (srt l).
(** The compressed matrix [T] has the entries of [A], rows in order. *)
Definition repr (A : gm V) (T : csr V) : Prop :=
  wf T /\ sorted_rows T /\ rows T = gm_rows A /\ cols T = gm_cols A /\
  forall i j v, i < gm_rows A -> (j, v) ∈ row_entries T i <-> gm_ent A !! (i, j) = Some v.
End GutSpec.
