(** What preprocessInput of TriCntAll.cpp and removeDuplicates of triple-util.h are meant to do. *)
From Verif Require Export Base Spec.

(** A comparison that std::sort accepts. *)
Record strict_weak {X} (lt : X -> X -> bool) : Prop := mkSW {
  sw_irrefl : forall x, lt x x = false;
  sw_trans : forall x y z, lt x y = true -> lt y z = true -> lt x z = true;
  sw_incomp : forall x y z, lt x y = false -> lt y z = false -> lt x z = false }.
(** The contract of std::sort: a rearrangement in which no element is less than an earlier one. *)
Definition std_sort {X} (srt : (X -> X -> bool) -> list X -> list X) : Prop :=
  forall lt, strict_weak lt -> forall l, srt lt l ≡ₚ l /\
    forall i j x y, i < j -> srt lt l !! i = Some x -> srt lt l !! j = Some y -> lt y x = false.

(** Vertices i and j of the undirected graph of a matrix without its diagonal are joined. *)
Definition joined {V} (A : csc V) (i j : nat) : Prop :=
  i <> j /\ (i ∈ fst <$> col_entries A j \/ j ∈ fst <$> col_entries A i).
(** Number of entries in row i. *)
Definition row_degree {V} (A : csc V) (i : nat) : nat := length (filter (fun r => r = i) (rowids A)).
(** [p] permutes 0 .. n-1. *)
Definition permutes (n : nat) (p : nat -> nat) : Prop :=
  (forall i, i < n -> p i < n) /\ forall i j, i < n -> j < n -> p i = p j -> i = j.
(** [ts] lists the triangles of the graph, each once. *)
Definition triangles {V} (A : csc V) (ts : list (nat * nat * nat)) : Prop :=
  NoDup ts /\ forall a b c, (a, b, c) ∈ ts <-> a < b /\ b < c /\ joined A a b /\ joined A b c /\ joined A a c.
