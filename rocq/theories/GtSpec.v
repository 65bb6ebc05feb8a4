(** What the constructors from a graph are meant to do. *)
From Verif Require Export GtModel MatSpec.
From Verif Require Import Base Spec.

Section GtSpec.
Context {V : Type}.
Notation edge3 := (nat * nat * V)%type.

(** operator< of std::pair<std::pair<IT, IT>, NT>. *)
Definition edge_lt (ltV : V -> V -> Prop) (x y : edge3) : Prop :=
  fst (fst x) < fst (fst y) \/ (fst (fst x) = fst (fst y) /\
    (snd (fst x) < snd (fst y) \/ (snd (fst x) = snd (fst y) /\ ltV (snd x) (snd y)))).
(** The contract of std::sort for it. *)
Definition edge_sort (ltV : V -> V -> Prop) (srt : list edge3 -> list edge3) : Prop :=
  forall l, srt l ≡ₚ l /\ forall i j x y, i < j -> srt l !! i = Some x -> srt l !! j = Some y -> ~ edge_lt ltV y x.

(** The edges of a graph: m of them, inside the arrays, between vertices below n. *)
Record graph_edges (G : graph V) (E : list edge3) : Prop := mkGE {
  ge_m : length E = g_m G;
  ge_at : forall k s e w, E !! k = Some (s, e, w) -> g_start G !! k = Some s /\ g_end G !! k = Some e /\ g_w G !! k = Some w;
  ge_range : forall s e w, (s, e, w) ∈ E -> s < g_n G /\ e < g_n G }.

(** The weights of the edges from s to e. *)
Definition weights (E : list edge3) (s e : nat) : list V := snd <$> filter (fun x => fst x = (s, e)) E.
(** [v] is the sum of the values [ws], there is at least one, in some order. *)
Definition sum_of (add : V -> V -> V) (ws : list V) (v : V) : Prop :=
  exists w r, w :: r ≡ₚ ws /\ v = fold_left add r w.
End GtSpec.
