(** Independent vocabulary for statements about matrix construction and conversion. *)
From Verif Require Import Base Spec.

Section Triples.
Context {V : Type}.
(** All stored entries (row, column, value). *)
Definition triples (A : csr V) : list (nat * nat * V) :=
  mjoin ((fun i => (fun e => (i, fst e, snd e)) <$> row_entries A i) <$> seq 0 (rows A)).
Definition triples_csc (B : csc V) : list (nat * nat * V) :=
  mjoin ((fun j => (fun e => (fst e, j, snd e)) <$> col_entries B j) <$> seq 0 (c_cols B)).
(** No column stores two entries for the same row. *)
Definition distinct_cols (B : csc V) : Prop :=
  forall j, j < c_cols B -> NoDup (fst <$> col_entries B j).
(** Entries (column, value) of row [i] of a compressed-column matrix, column by column. *)
Definition csc_row (B : csc V) (i : nat) : list (nat * V) :=
  mjoin ((fun j => (fun e => (j, snd e)) <$> filter (fun e => fst e = i) (col_entries B j)) <$> seq 0 (c_cols B)).
End Triples.

Section Sorting.
Context {V : Type} (ltV : V -> V -> Prop).
(** operator< of std::pair<IT, NT>. *)
Definition pair_lt (x y : nat * V) : Prop := fst x < fst y \/ (fst x = fst y /\ ltV (snd x) (snd y)).
(** The contract of std::sort: a permutation of the input in which no element is less than an earlier
    one.  (A comparison that is not a strict weak order is outside the contract of std::sort.) *)
Definition sort_contract (stdsort : list (nat * V) -> list (nat * V)) : Prop :=
  forall l, stdsort l ≡ₚ l /\
    forall i j x y, i < j -> stdsort l !! i = Some x -> stdsort l !! j = Some y -> ~ pair_lt y x.
End Sorting.
