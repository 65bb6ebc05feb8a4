(** Splitting a square matrix into a grid of blocks: what the files of blocked_parallel_tc.cpp are meant to hold. *)
From stdpp Require Import numbers list_numbers.
From Coq Require Import ZArith.
From Verif Require Export IoSpec MatSpec.
From Verif Require Export Base Spec.
Local Open Scope list_scope.

(** The sizes of the parts into which the rows, and likewise the columns, are split; size of part i, rows before it. *)
Definition bsize (ns : list nat) (i : nat) : nat := default 0 (ns !! i).
Definition boff (ns : list nat) (i : nat) : nat := sum_list (take i ns).

(** [S] is block (i, j) of A. *)
Record is_block (A : csr Z) (ns : list nat) (i j : nat) (S : csr Z) : Prop := mkBlk {
  bl_wf : wf S; bl_sorted : sorted_rows S; bl_rows : rows S = bsize ns i; bl_cols : cols S = bsize ns j;
  bl_el : forall r c v, r < bsize ns i -> (c, v) ∈ row_entries S r <-> c < bsize ns j /\ (boff ns j + c, v) ∈ row_entries A (boff ns i + r) }.

(** The file [f] stands for block (i, j) of A. *)
Definition file_block (A : csr Z) (ns : list nat) (i j : nat) (f : mmfile) : Prop :=
  mm_wf f /\ mm_symm f <> SymSkew /\ (mm_symm f = SymYes -> mm_rows f = mm_cols f) /\ values_integral f /\
  mm_rows f = bsize ns i /\ mm_cols f = bsize ns j /\ NoDup (fst <$> means f) /\
  forall r c v, (r, c, v) ∈ means f <-> r < bsize ns i /\ c < bsize ns j /\ (boff ns j + c, v) ∈ row_entries A (boff ns i + r).

(** A matrix of [sum_list ns] rows and columns, rows in order. *)
Definition squareOf (A : csr Z) (ns : list nat) : Prop := wf A /\ sorted_rows A /\ rows A = sum_list ns /\ cols A = sum_list ns.

(** Is there a K among the [len] numbers from [lo] on with an entry (R, K) and an entry (K, C)? *)
Definition through (A : csr Z) (lo len : nat) (RC : nat * nat) : bool :=
  existsb (fun K => bool_decide (K ∈ row_cols A (fst RC)) && bool_decide (snd RC ∈ row_cols A K)) (seq lo len).
(** The positions of the entries of A. *)
Definition positions (A : csr Z) : list (nat * nat) := mjoin ((fun R => (fun C => (R, C)) <$> row_cols A R) <$> seq 0 (rows A)).
