(** Independent specification: what a masked sparse product is, in terms of the
    matrices' entries only.  Nothing here refers to the model of the code. *)
From Verif Require Import Base.

(** A sparse matrix in compressed-row form, as the user sees it
    (CSR.h:23-26: rows, cols, nnz, rowptr, colids, values). *)
Record csr (V : Type) := mkCsr {
  rows : nat; cols : nat; nnz : nat;
  rowptr : list nat; colids : list nat; values : list V }.
Arguments mkCsr {V} _ _ _ _ _ _.
Arguments rows {V} _.
Arguments cols {V} _.
Arguments nnz {V} _.
Arguments rowptr {V} _.
Arguments colids {V} _.
Arguments values {V} _.

(** Well-formed: row pointers start at 0, never decrease, end at nnz; the arrays
    have the declared lengths; every column index is in range. *)
Record wf {V} (A : csr V) : Prop := mkWf {
  wf_len : length (rowptr A) = rows A + 1;
  wf_first : rowptr A !! 0 = Some 0;
  wf_mono : forall i a b, rowptr A !! i = Some a -> rowptr A !! (i + 1) = Some b -> a <= b;
  wf_last : rowptr A !! rows A = Some (nnz A);
  wf_colids : length (colids A) = nnz A;
  wf_values : length (values A) = nnz A;
  wf_range : forall p c, colids A !! p = Some c -> c < cols A }.

(** The stored entries of row [i], in storage order. *)
Definition row_entries {V} (A : csr V) (i : nat) : list (nat * V) :=
  match rowptr A !! i, rowptr A !! (i + 1) with
  | Some b, Some e => take (e - b) (drop b (zip (colids A) (values A)))
  | _, _ => []
  end.

Definition row_cols {V} (A : csr V) (i : nat) : list nat := fst <$> row_entries A i.

(** Strictly increasing / repetition-free rows. *)
Definition sorted_rows {V} (A : csr V) : Prop :=
  forall i, i < rows A -> StronglySorted lt (row_cols A i).
Definition distinct_rows {V} (A : csr V) : Prop :=
  forall i, i < rows A -> NoDup (row_cols A i).

(** Three matrices that can be used as left operand, right operand and mask. *)
Record compatible {V} (A B M : csr V) : Prop := mkCompat {
  co_A : wf A; co_B : wf B; co_M : wf M;
  co_inner : cols A = rows B; co_rows : rows M = rows A; co_cols : cols M = cols B }.

Section MaskedProduct.
Context {V : Type} (mul add : V -> V -> V).

(** All products [mul a b] with [(k,a)] in the row of A and [(j,b)] in row k of B,
    in storage order. *)
Definition products (arow : list (nat * V)) (brow : nat -> list (nat * V)) (j : nat) : list V :=
  mjoin ((fun ka => (fun cb => mul (snd ka) (snd cb)) <$>
                    filter (fun cb => fst cb = j) (brow (fst ka))) <$> arow).

(** Non-empty left-to-right sum. *)
Definition sum1 (l : list V) : option V :=
  match l with [] => None | x :: xs => Some (fold_left add xs x) end.

(** Entry (row, j) of the product: absent if there is no product at all. *)
Definition entry arow brow j : option V := sum1 (products arow brow j).

(** The masked row: mask columns in mask order, those that receive a product. *)
Definition masked_row arow brow (mask : list nat) : list (nat * V) :=
  omap (fun j => (fun v => (j, v)) <$> entry arow brow j) mask.

(** [i]-th row of the product of A and B under the plain mask M. *)
Definition spec_row (A B M : csr V) (i : nat) : list (nat * V) :=
  masked_row (row_entries A i) (row_entries B) (row_cols M i).

(** Entry (i, j) of the unmasked product. *)
Definition prod_entry (A B : csr V) (i j : nat) : option V :=
  entry (row_entries A i) (row_entries B) j.

(** [l] lists, once each, exactly the entries of row [i] of the product that lie
    outside the mask. *)
Definition is_compl_row (A B M : csr V) (i : nat) (l : list (nat * V)) : Prop :=
  NoDup (fst <$> l) /\
  forall j v, (j, v) ∈ l <-> (j ∉ row_cols M i /\ prod_entry A B i j = Some v).

(** [v] is the sum of the products of entry (i, j) taken in some order, each new product added on the
    left of the running sum. *)
Definition sum_in_some_order (A B : csr V) (i j : nat) (v : V) : Prop :=
  exists ord, ord ≡ₚ products (row_entries A i) (row_entries B) j /\
    match ord with [] => False | x :: xs => v = fold_left (fun s y => add y s) xs x end.

(** Columns in order of first occurrence. *)
Fixpoint first_touch (l : list nat) : list nat :=
  match l with
  | [] => []
  | c :: l' => c :: filter (fun x => x <> c) (first_touch l')
  end.

(** Columns of the products of row [i], in the order the products are generated. *)
Definition touched_cols (A B : csr V) (i : nat) : list nat :=
  mjoin ((fun ka => row_cols B (fst ka)) <$> row_entries A i).

(** Columns of row [i] of the product outside the mask, in order of first product. *)
Definition compl_cols (A B M : csr V) (i : nat) : list nat :=
  filter (fun j => j ∉ row_cols M i) (first_touch (touched_cols A B i)).
End MaskedProduct.

(** A sparse matrix in compressed-column form (CSC.h: rows, cols, nnz, colptr, rowids, values). *)
Record csc (V : Type) := mkCsc {
  c_rows : nat; c_cols : nat; c_nnz : nat;
  colptr : list nat; rowids : list nat; c_values : list V }.
Arguments mkCsc {V} _ _ _ _ _ _.
Arguments c_rows {V} _.
Arguments c_cols {V} _.
Arguments c_nnz {V} _.
Arguments colptr {V} _.
Arguments rowids {V} _.
Arguments c_values {V} _.

(** The same arrays read as the compressed-row form of the transposed matrix. *)
Definition csc_tr {V} (B : csc V) : csr V :=
  mkCsr (c_cols B) (c_rows B) (c_nnz B) (colptr B) (rowids B) (c_values B).

Definition wf_csc {V} (B : csc V) : Prop := wf (csc_tr B).
(** Stored entries (row, value) of column [j], in storage order. *)
Definition col_entries {V} (B : csc V) (j : nat) : list (nat * V) := row_entries (csc_tr B) j.
Definition sorted_cols {V} (B : csc V) : Prop :=
  forall j, j < c_cols B -> StronglySorted lt (fst <$> col_entries B j).

(** [B] and [Bc] hold the same entries (k, j, b). *)
Record same_matrix {V} (B : csr V) (Bc : csc V) : Prop := mkSame {
  sm_rows : rows B = c_rows Bc;
  sm_cols : cols B = c_cols Bc;
  sm_entries : forall k j b, k < rows B -> j < cols B ->
    ((j, b) ∈ row_entries B k <-> (k, b) ∈ col_entries Bc j) }.
