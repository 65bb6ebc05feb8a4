(** The helpers of the graph programs (grb_util.h 744-904): read_grb_mtx, sort_by_degree, get_lowtri, convert_to_csc, avoid_iso.

    Simplifications.  A GraphBLAS matrix is its sizes and its map of entries; how the arrays move is in GrbModel.  The GraphBLAS
    calls are given by contract: they are not part of the repository.  Codes they return are dropped, as in the code.  Sums of values are those of the value type
    ([plusV]); memory that is not released (the matrix *A of sort_by_degree and of convert_to_csc before the build, descriptors,
    scalars) is left out, and so is output. *)
From stdpp Require Import gmap.
From Coq Require Import ZArith.
From Verif Require Export IoModel.
From Verif Require Export Base Spec.
Local Open Scope list_scope.

(** A GrB_Matrix: sizes and entries.  GrB_Matrix of grb_util.h 744-904. *)
Record gm (V : Type) := mkGm { gm_rows : nat; gm_cols : nat; gm_ent : gmap (nat * nat) V }.
Arguments mkGm {V} _ _ _.
Arguments gm_rows {V} _.
Arguments gm_cols {V} _.
Arguments gm_ent {V} _.

Section Gut.
Context {V : Type} (minV plusV : V -> V -> V).

(** GrbMatrixBuild (grb_util.h 398-525): GrB_Matrix_new, then GrB_Matrix_build with the operator MIN for tuples at the same
    place.  If an index is not below its size the build fails and the new matrix stays without entries.  (A negative number
    in an unsigned index is larger than every size.) *)
Definition inRange (m n : nat) (t : Z * Z * V) : bool :=
  let '(r, c, _) := t in ((0 <=? r) && (r <? Z.of_nat m) && (0 <=? c) && (c <? Z.of_nat n))%Z.
(** The entries GrB_Matrix_build makes of tuples in range: grb_util.h 398-525 *)
Definition buildEnt (its : list (Z * Z * V)) : gmap (nat * nat) V :=
  foldl (fun E '(r, c, v) => partial_alter (fun o => Some (match o with Some w => minV w v | None => v end)) (Z.to_nat r, Z.to_nat c) E) ∅ its.
(** GrbMatrixBuild: grb_util.h 398-525 *)
Definition grbBuild (m n : nat) (its : list (Z * Z * V)) : gm V :=
  mkGm m n (if forallb (inRange m n) its then buildEnt its else ∅).

(** GrB_Matrix_eWiseAdd_Semiring(A, NULL, NULL, plus-times, A, A, T1): A + A^T; refused, with A left as it is, unless A is square.
    grb_util.h 767-781 *)
Definition transEnt (E : gmap (nat * nat) V) : gmap (nat * nat) V := kmap (fun p => (snd p, fst p)) E.
(** A + A^T: grb_util.h 767-781 *)
Definition grbSymm (A : gm V) : gm V :=
  if gm_rows A =? gm_cols A
  then mkGm (gm_rows A) (gm_cols A) (union_with (fun x y => Some (plusV x y)) (gm_ent A) (transEnt (gm_ent A)))
  else A.

(** [read_grb_mtx]: grb_util.h 744-784.  [rand]: rand_vals. *)
Definition readGrbMtx (ofInt : Z -> V) (remove_diags symmetricize : bool) (rand : option (nat -> V)) (imax : Z) (f : option (list ascii)) : res (gm V) :=
  '(m, n, its) <- readTriples ofInt rand remove_diags imax f ;;
  let A := grbBuild m n its in
  Ok (if symmetricize then grbSymm A else A).

(** GrB_Matrix_extractTuples: all entries, in some order.  grb_util.h 532-640 *)
Definition extracted (A : gm V) (its : list (nat * nat * V)) : Prop := its ≡ₚ map_to_list (gm_ent A).

(** [sort_by_degree] for the tuples [its] extracted and std::sort(…, std::greater) as [srt]: grb_util.h 786-834.  The mapping is
    not initialised. *)
Definition sortByDegree (srt : list (nat * nat) -> list (nat * nat)) (its : list (nat * nat * V)) (A : gm V) : res (gm V) :=
  let nrows := gm_rows A in
  let ncols := gm_cols A in
  let cnts := (fun i => (0, i)) <$> seq 0 nrows in
  cnts <- foldM (fun cnts '(r, _, _) => c <- get cnts r ;; set_ cnts r (fst c + 1, snd c)) its cnts ;;
  let cnts := srt cnts in
  mapping <- for_ 0 nrows (fun i mapping => c <- get cnts i ;; set_ mapping (snd c) (Some i)) (replicate nrows None) ;;
  its <- foldM (fun acc '(r, c, v) => r <- getI mapping r ;; c <- getI mapping c ;; Ok (acc ++ [(Z.of_nat r, Z.of_nat c, v)])) its [] ;;
  Ok (grbBuild nrows ncols its).

(** [get_lowtri]: grb_util.h 836-855; L is a new square matrix with as many rows as A; GxB_Matrix_select with GxB_TRIL and -1 keeps
    the entries with column - row <= -1, and fails if L and A have different sizes. *)
Definition getLowtri (A : gm V) : gm V :=
  let n := gm_rows A in
  mkGm n n (if gm_cols A =? n then filter (fun e => snd (fst e) < fst (fst e)) (gm_ent A) else ∅).

(** [convert_to_csc]: grb_util.h 857-888 *)
Definition convertToCsc (its : list (nat * nat * V)) (A : gm V) : gm V :=
  grbBuild (gm_rows A) (gm_cols A) ((fun '(r, c, v) => (Z.of_nat r, Z.of_nat c, v)) <$> its).

(** [avoid_iso]: grb_util.h 892-904; GrB_Matrix_setElement outside the matrix fails. *)
Definition setElement (A : gm V) (x : V) (i j : nat) : gm V :=
  if (i <? gm_rows A) && (j <? gm_cols A) then mkGm (gm_rows A) (gm_cols A) (<[(i, j) := x]> (gm_ent A)) else A.
(** avoid_iso: grb_util.h 892-904 *)
Definition avoidIso (zero : V) (A : gm V) (x : V) (i j : nat) : gm V := setElement (setElement A zero i j) x i j.
End Gut.
