(** The product of a matrix with itself outside of its own entries, over lists of entries (row, column, value). *)
From Coq Require Import ZArith Ascii String.
From stdpp Require Import strings list.
From Verif Require Import IoSpec.
From Verif Require Import Base Spec.
Local Open Scope nat_scope.

Definition epos (e : nat * nat * Z) : nat * nat := fst e.
(** Two entries (i, k) and (k, j) with nothing stored at (i, j); their position (i, j), their product. *)
Definition step_pos (p : (nat * nat * Z) * (nat * nat * Z)) : nat * nat := (fst (fst (fst p)), snd (fst (snd p))).
Definition step_val (p : (nat * nat * Z) * (nat * nat * Z)) : Z := (snd (fst p) * snd (snd p))%Z.
Definition two_steps (E : list (nat * nat * Z)) : list ((nat * nat * Z) * (nat * nat * Z)) :=
  filter (fun p => snd (fst (fst p)) = fst (fst (snd p)) /\ step_pos p ∉ epos <$> E) (list_prod E E).
(** [n] different positions. *)
Definition positions_count (E : list (nat * nat * Z)) (n : nat) : Prop :=
  exists P, NoDup P /\ (forall x, x ∈ P <-> x ∈ step_pos <$> two_steps E) /\ length P = n.
(** The sum of all products. *)
Definition step_sum (E : list (nat * nat * Z)) : Z := foldr Z.add 0%Z (step_val <$> two_steps E).

(** The sum of the products at position (i, j). *)
Definition step_at (E : list (nat * nat * Z)) (i j : nat) : Z := foldr Z.add 0%Z (step_val <$> filter (fun p => step_pos p = (i, j)) (two_steps E)).
(** [C] holds these sums modulo 2^64, the columns of every row in order. *)
Definition result_of (E : list (nat * nat * Z)) (n : nat) (C : csr Z) : Prop :=
  wf C /\ rows C = n /\ cols C = n /\ sorted_rows C /\
  forall i j v, (i < n /\ (j, v) ∈ row_entries C i) <-> ((i, j) ∈ step_pos <$> two_steps E /\ v = (step_at E i j mod 2 ^ 64)%Z).

(** The labels of the lines of ComplementMaskedSpGEMM, in order, for each of the modes it knows. *)
Definition heap_labels : list text := txt <$> ["MaskedHeap<true,true,0>-1P"; "MaskedHeap<true,true,0>-2P"]%string.
Definition hash_labels : list text := txt <$> ["MaskedHash<true,false>-1P"; "MaskedHash<true,false>-2P"; "MaskedHash<true,true>-1P"; "MaskedHash<true,true>-2P"]%string.
Definition msa_labels : list text := txt <$>
  ["MSA1A<true,false>-1P"; "MSA1A<true,false>-2P"; "MSA1A<true,true>-1P"; "MSA1A<true,true>-2P";
   "MSA2A<true,false>-1P"; "MSA2A<true,false>-2P"; "MSA2A<true,true>-1P"; "MSA2A<true,true>-2P"]%string.
Definition comp_modes : list (text * list text) :=
  [(txt "heap", heap_labels); (txt "hash", hash_labels); (txt "msa", msa_labels); (txt "all", heap_labels ++ hash_labels ++ msa_labels)].
(** [t] is the word [w], in capital or small letters. *)
Definition spells (t w : text) : Prop :=
  Forall2 (fun a b => a = b \/ exists k, txt "ABCDEFGHIJKLMNOPQRSTUVWXYZ" !! k = Some a /\ txt "abcdefghijklmnopqrstuvwxyz" !! k = Some b) t w.
(** The label of an algorithm that orders the columns of every row. *)
Fixpoint contains (needle t : text) : bool :=
  match t with
  | [] => bool_decide (needle = [])
  | _ :: t' => bool_decide (take (length needle) t = needle) || contains needle t'
  end.
Definition ordered_label (n : text) : bool := contains (txt "true,true") n.
