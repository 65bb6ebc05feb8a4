(** What GraphBLAS does with a matrix whose arrays are taken out of it or put into it.  GraphBLAS is not part of the
    repository; these are the documented contracts of GxB_Matrix_unpack_CSR/CSC, GxB_Matrix_pack_CSR/CSC and
    GxB_Matrix_import_CSR, with the arrays as blocks of one heap. *)
From stdpp Require Import gmap.
From Verif Require Export ObjModel.
From Verif Require Import Base Spec.

Section GrbSpec.
Context {V : Type} (szV : nat).
Notation heap := (gmap nat (ablock V)).

(** A GrB_Matrix: its sizes, whether it is kept by columns, its three arrays with the sizes in bytes it was told, whether one
    value stands for all entries, whether the ids inside a vector may be out of order. *)
Record gmat := mkG { g_rows : nat; g_cols : nat; g_bycol : bool; g_p : ptr; g_i : ptr; g_x : ptr;
  g_psize : nat; g_isize : nat; g_xsize : nat; g_iso : bool; g_jum : bool }.
(** The number of vectors (rows or columns) and the length of each. *)
Definition vecs (bycol : bool) (A : gmat) : nat := if bycol then g_cols A else g_rows A.
Definition vlen (bycol : bool) (A : gmat) : nat := if bycol then g_rows A else g_cols A.

(** A pointer to a block, which is all of the part [h] of the heap; an array without elements may also be NULL. *)
Inductive owns (b : ablock V) : ptr -> heap -> Prop := owns_blk n : owns b (PBlk n) {[n := b]}.
Inductive owns0 (b : ablock V) : ptr -> heap -> Prop :=
| owns0_blk n : owns0 b (PBlk n) {[n := b]}
| owns0_null : b = BI [] \/ b = BV [] -> owns0 b PNull ∅.
(** The part [own] of the heap is exactly the three arrays. *)
Definition stored (own : heap) (p i x : ptr) (rp ci : list nat) (xs : list V) : Prop :=
  exists hp hi hx, own = hp ∪ (hi ∪ hx) /\ hp ##ₘ hi /\ hp ##ₘ hx /\ hi ##ₘ hx /\
    owns (BI rp) p hp /\ owns0 (BI ci) i hi /\ owns0 (BV xs) x hx.
(** One value for all entries, or one for each. *)
Definition isoVals (iso : bool) (xs : list V) (Y : csr V) : Prop :=
  if iso then exists v, xs = [v] /\ values Y = replicate (nnz Y) v else xs = values Y.

(** The matrix [A] owns the part [own] of the heap and holds there the compressed vectors [Y] (rows of the matrix, or its
    columns if it is kept by columns); [xs] is its array of values. *)
Record gholds (own : heap) (A : gmat) (Y : csr V) : Prop := mkGholds {
  gh_wf : wf Y;
  gh_rows : rows Y = vecs (g_bycol A) A;
  gh_cols : cols Y = vlen (g_bycol A) A;
  gh_distinct : distinct_rows Y;
  gh_sorted : g_jum A = false -> sorted_rows Y;
  gh_arrays : (nnz Y = 0 /\ own = ∅ /\ g_p A = PNull /\ g_i A = PNull /\ g_x A = PNull) \/
              exists xs, stored own (g_p A) (g_i A) (g_x A) (rowptr Y) (colids Y) xs /\ isoVals (g_iso A) xs Y }.
(** The sizes GraphBLAS was told are the sizes of the arrays. *)
Definition true_sizes (A : gmat) (Y : csr V) : Prop :=
  g_psize A = 8 * (rows Y + 1) /\ g_isize A = 8 * nnz Y /\ g_xsize A = szV * (if g_iso A then 1 else nnz Y).

(** A CSR object, with the matrix [Y], whose arrays are the part [own] of the heap; a CSC object with the matrix [B]. *)
Record csr_obj (own : heap) (o : obj) (Y : csr V) : Prop := mkCsrObj {
  ro_rows : o_rows o = rows Y; ro_cols : o_cols o = cols Y; ro_nnz : o_nnz o = nnz Y; ro_zb : o_zb o = true;
  ro_arr : stored own (o_rp o) (o_ci o) (o_va o) (rowptr Y) (colids Y) (values Y) }.
Record csc_obj (own : heap) (o : obj) (B : csc V) : Prop := mkCscObj {
  co_rows' : o_rows o = c_rows B; co_cols' : o_cols o = c_cols B; co_nnz' : o_nnz o = c_nnz B;
  co_arr' : stored own (o_rp o) (o_ci o) (o_va o) (colptr B) (rowids B) (c_values B) }.

(** Entry (i, j) of the matrix kept as the vectors [Y] has the value [v]. *)
Definition ent (bycol : bool) (Y : csr V) (i j : nat) (v : V) : Prop :=
  if bycol then (i, v) ∈ row_entries Y j else (j, v) ∈ row_entries Y i.

(** The matrix without entries that is left. *)
Definition emptied (A : gmat) : gmat := mkG (g_rows A) (g_cols A) (g_bycol A) PNull PNull PNull 0 0 0 false false.

(** GxB_Matrix_unpack_CSR ([bycol] = false), GxB_Matrix_unpack_CSC ([bycol] = true); [wi], [wj]: the caller asks for the flags
    is_iso, is_jumbled instead of passing NULL.  From the heap [h] to [h']: the arrays [p], [i], [x] hold the entries of the
    matrix as vectors [Y], [nz] of them. *)
Definition unpacked (bycol wi wj : bool) (A : gmat) (h : heap) (A' : gmat) (h' : heap) (p i x : ptr) (iso jum : bool) (nz : nat) : Prop :=
  exists own fr own' Y Y' xs,
    h = own ∪ fr /\ own ##ₘ fr /\ gholds own A Y /\
    h' = own' ∪ fr /\ own' ##ₘ fr /\ A' = emptied A /\
    stored own' p i x (rowptr Y') (colids Y') xs /\ isoVals iso xs Y' /\
    wf Y' /\ rows Y' = vecs bycol A /\ cols Y' = vlen bycol A /\ distinct_rows Y' /\ (jum = false -> sorted_rows Y') /\
    nnz Y' = nnz Y /\ nz = nnz Y /\ (forall a b v, ent bycol Y' a b v <-> ent (g_bycol A) Y a b v) /\
    iso = wi && g_iso A /\ (wj = false -> jum = false) /\ (wj = true -> bycol = g_bycol A -> jum = g_jum A).

(** GxB_Matrix_pack_CSR / CSC: sizes in bytes that are too small are refused (GrB_INVALID_VALUE, nothing changes, first
    component false); otherwise the old arrays of the matrix are released, the new ones move into it and the pointers become
    NULL. *)
Definition grbPack (bycol : bool) (A : gmat) (p i x : ptr) (psize isize xsize : nat) (iso jum : bool) (h : heap) :
    res (bool * gmat * ptr * ptr * ptr * heap) :=
  if psize <? 8 * (vecs bycol A + 1) then Ok (false, A, p, i, x, h)
  else
    '(_, Ap) <- blkI p h ;;
    nv <- get Ap (vecs bycol A) ;;
    if (isize <? 8 * nv) || (xsize <? szV * (if iso then 1 else nv)) then Ok (false, A, p, i, x, h)
    else
      h <- free_ (g_p A) h ;;
      h <- free_ (g_i A) h ;;
      h <- free_ (g_x A) h ;;
      Ok (true, mkG (g_rows A) (g_cols A) bycol p i x psize isize xsize iso jum, PNull, PNull, PNull, h).
End GrbSpec.
