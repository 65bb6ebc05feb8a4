(** Vocabulary for the statements about submatrices. *)
From stdpp Require Import numbers list_numbers.
From Verif Require Import Base Spec.

Section RefSpec.
Context {V : Type}.

(** For every row of [ri], in the order of [ri], the entries of a column in that row. *)
Definition picked (ri : list nat) (col : list (nat * V)) : list (nat * V) :=
  mjoin ((fun r => filter (fun e => fst e = r) col) <$> ri).
(** The entries of a column in rows of [ri], in the order of the column. *)
Definition rows_in (ri : list nat) (col : list (nat * V)) : list (nat * V) := filter (fun e => fst e ∈ ri) col.

(** [R] has one row for each element of [ri] and one column for each of [ci], column [i] being [f] of column [ci[i]] of [X];
    its arrays are those of a well-formed matrix, with row ids of [X]. *)
Record sub_of (f : list (nat * V) -> list (nat * V)) (X : csc V) (ri ci : list nat) (R : csc V) : Prop := mkSub {
  su_rows : c_rows R = length ri;
  su_cols : c_cols R = length ci;
  su_wf : wf_csc (mkCsc (c_rows X) (c_cols R) (c_nnz R) (colptr R) (rowids R) (c_values R));
  su_col : forall i c, ci !! i = Some c -> col_entries R i = f (col_entries X c) }.
End RefSpec.
