(** Matrices taken from GraphBLAS and given to it: CSR.h 377-450, 746-859; CSC.h 49-60, 322-371, 612-653.

    Simplifications.  Sizes in bytes are unbounded naturals; the index type is GrB_Index, of 8 bytes (static_assert, or the type
    of the arguments).  What GraphBLAS does is given in GrbSpec.v.  Descriptors are left out (those of CSC.h 322-371 and CSR.h 437 are
    never released).  assert is active. *)
From stdpp Require Import gmap.
From Verif Require Export GrbSpec.
From Verif Require Import Base Spec.

Section Grb.
Context {V : Type} (szV : nat).
Notation heap := (gmap nat (ablock V)).

(** CSR(GrB_Matrix A): CSR.h 377-417.  [r] is a possible outcome. *)
Definition csrOfGrb (A : gmat) (h : heap) (r : res (obj * gmat * heap)) : Prop :=
  exists A' h' p i x is_iso is_jumbled nnz,
    unpacked false true true A h A' h' p i x is_iso is_jumbled nnz /\
    r = (_ <- assert_ (negb is_iso) ;; _ <- assert_ (negb is_jumbled) ;; Ok (mkObj (g_rows A) (g_cols A) nnz p i x true, A', h')).

(** CSC(GrB_Matrix A): CSC.h 322-371; colptr, rowids, values are the three pointers of [obj] *)
Definition cscOfGrb (A : gmat) (h : heap) (r : res (obj * gmat * heap)) : Prop :=
  exists A' h' p i x nnz,
    unpacked true false false A h A' h' p i x false false nnz /\
    r = Ok (mkObj (g_rows A) (g_cols A) nnz p i x true, A', h').

(** [p == NULL].  CSR.h 791-832. *)
Definition isNull (p : ptr) : bool := match p with PNull => true | _ => false end.

(** CSR::get_grb_mat(GrB_Matrix A): CSR.h 791-832 *)
Definition csrToGrb (o : obj) (A : gmat) (h : heap) : res (obj * gmat * heap) :=
  _ <- assert_ ((g_rows A =? o_rows o) && (g_cols A =? o_cols o)) ;;
  let ap_size := 8 * (o_rows o + 1) in
  let aj_size := 8 * o_nnz o in
  let ax_size := szV * o_nnz o in
  '(_, A, p, i, x, h) <- grbPack szV false A (o_rp o) (o_ci o) (o_va o) ap_size aj_size ax_size false false h ;;
  _ <- assert_ (isNull p && isNull i && isNull x) ;;
  Ok (mkObj (o_rows o) (o_cols o) (o_nnz o) p i x (o_zb o), A, h).

(** CSC::get_grb_mat(GrB_Matrix A): CSC.h 612-653 *)
Definition cscToGrb (o : obj) (A : gmat) (h : heap) : res (obj * gmat * heap) :=
  _ <- assert_ ((g_rows A =? o_rows o) && (g_cols A =? o_cols o)) ;;
  let ap_size := 8 * (o_rows o + 1) in
  let aj_size := 8 * o_nnz o in
  let ax_size := szV * o_nnz o in
  '(_, A, p, i, x, h) <- grbPack szV true A (o_rp o) (o_ci o) (o_va o) ap_size aj_size ax_size false false h ;;
  _ <- assert_ (isNull p && isNull i && isNull x) ;;
  Ok (mkObj (o_rows o) (o_cols o) (o_nnz o) p i x (o_zb o), A, h).

(** CSC::make_empty and the destructor: CSC.h 49-60, 76-79 *)
Definition cscMakeEmpty (this : obj) (h : heap) : res (obj * heap) :=
  h <- (if 0 <? o_nnz this then h <- free_ (o_ci this) h ;; free_ (o_va this) h else Ok h) ;;
  h <- (if 0 <? o_cols this then free_ (o_rp this) h else Ok h) ;;
  Ok (mkObj 0 0 0 (o_rp this) (o_ci this) (o_va this) (o_zb this), h).

(** CSR(GrB_Matrix *A, bool dup_mat): CSR.h 421-450.  GxB_Matrix_export_CSR hands out the arrays and releases the matrix it is
    given: a copy of *A (whose arrays are the part [cp] of the heap), or *A itself.  The second component is what *A refers to
    afterwards: [None] if it was released. *)
Definition csrOfGrbDup (A : gmat) (dup_mat : bool) (h : heap) (r : res (obj * option gmat * heap)) : Prop :=
  exists (tmp : gmat) (h0 : heap) A' h' p i x is_uniform is_jumbled nnz,
    (if dup_mat then
       exists own fr cp Y, h = own ∪ fr /\ own ##ₘ fr /\ gholds own A Y /\ cp ##ₘ h /\ gholds cp tmp Y /\ h0 = cp ∪ h /\
         g_rows tmp = g_rows A /\ g_cols tmp = g_cols A /\ g_bycol tmp = g_bycol A /\ g_iso tmp = g_iso A /\ g_jum tmp = g_jum A
     else tmp = A /\ h0 = h) /\
    unpacked false true true tmp h0 A' h' p i x is_uniform is_jumbled nnz /\
    r = (_ <- assert_ (negb is_jumbled) ;; Ok (mkObj (g_rows tmp) (g_cols tmp) nnz p i x true, if dup_mat then Some A else None, h')).

(** CSR::get_grb_mat_ptr: CSR.h 837-859.  GxB_Matrix_import_CSR packs the arrays into a new matrix [A0] or fails, which leaves
    *A without a matrix. *)
Definition csrToGrbPtr (o : obj) (h : heap) : res (obj * option gmat * heap) :=
  let A0 := mkG (o_rows o) (o_cols o) false PNull PNull PNull 0 0 0 false false in
  '(ok, A, p, i, x, h) <- grbPack szV false A0 (o_rp o) (o_ci o) (o_va o)
     (8 * (o_rows o + 1)) (szV * o_nnz o) (szV * o_nnz o) false false h ;;
  Ok (mkObj (o_rows o) (o_cols o) (o_nnz o) p i x (o_zb o), if ok : bool then Some A else None, h).

(** CSR::get_grb_mat(GrB_Matrix *A), the row and column numbers given to GrB_Matrix_build with the values: CSR.h 746-771; numbers
    of 64 bits *)
Definition minus64 (x : nat) (decr : N) : N := ((N.of_nat x + 2 ^ 64 - decr) mod 2 ^ 64)%N.
(** The loop over the rows: CSR.h 750-766 *)
Definition csrBuildArgs (X : csr V) (zerobased : bool) : res (list N * list N) :=
  let decr := (if zerobased then 0 else 1)%N in
  '(rinds, cinds, _) <- for_ 0 (rows X) (fun r s =>
      b <- get (rowptr X) r ;;
      e <- get (rowptr X) (r + 1) ;;
      for_ b e (fun cidx '(rinds, cinds, i) =>
        rinds <- set_ rinds i (minus64 r decr) ;;
        c <- get (colids X) cidx ;;
        cinds <- set_ cinds i (minus64 c decr) ;;
        Ok (rinds, cinds, i + 1)) s) (replicate (nnz X) 0%N, replicate (nnz X) 0%N, 0) ;;
  Ok (rinds, cinds).
End Grb.
