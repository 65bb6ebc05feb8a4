(** Splitting a matrix into pieces of consecutive rows: SplitTuples.h, and the halves made from the pieces in sample/NUMA-aware.cpp.

    Simplifications.  Indices are unbounded naturals; a division by zero is [DivByZero].  rows, cols, nnz and splits of the object are copies
    of the arguments and are left out; the result is the vector splitTuples.  The other files in which the class is used differ from
    sample/NUMA-aware.cpp in the timing only (sample/ProfileOuterSpGEMM.cpp 86-88). *)
From Verif Require Export MatModel.
From Verif Require Import Base Spec.

(** The operator / of IT.  SplitTuples.h 42, 48, 63, 66, 70 *)
Definition divIT (a b : nat) : res nat := if b =? 0 then Err DivByZero else Ok (a / b).
(** The operator % of IT.  SplitTuples.h 70 *)
Definition modIT (a b : nat) : res nat := if b =? 0 then Err DivByZero else Ok (a mod b).
(** splitTuples[owner].push_back(x): SplitTuples.h 49, 70 *)
Definition pushTo {A} (ps : list (list A)) (owner : nat) (x : A) : res (list (list A)) :=
  l <- get ps owner ;; set_ ps owner (l ++ [x]).

Section Split.
Context {V : Type}.
(** SplitTuples(CSC&, numsplits): SplitTuples.h 33-52 *)
Definition splitCsc (A : csc V) (numsplits : nat) : res (list (list (nat * nat * V))) :=
  perpiece <- divIT (c_rows A) numsplits ;;
  for_ 0 (c_cols A) (fun i ps =>
    b <- get (colptr A) i ;;
    e <- get (colptr A) (i + 1) ;;
    for_ b e (fun j ps =>
      rowid <- get (rowids A) j ;;
      q <- divIT rowid perpiece ;;
      v <- get (c_values A) j ;;
      pushTo ps (Nat.min q (numsplits - 1)) (rowid, i, v)) ps)
    (replicate numsplits []).

(** SplitTuples(CSR&, numsplits): SplitTuples.h 54-73.  The rows of a piece are A.cols / splits. *)
Definition splitCsr (A : csr V) (numsplits : nat) : res (list (list (nat * nat * V))) :=
  perpiece <- divIT (cols A) numsplits ;;
  for_ 0 (rows A) (fun i ps =>
    q <- divIT i perpiece ;;
    b <- get (rowptr A) i ;;
    e <- get (rowptr A) (i + 1) ;;
    for_ b e (fun j ps =>
      colid <- get (colids A) j ;;
      r <- modIT i perpiece ;;
      v <- get (values A) j ;;
      pushTo ps (Nat.min q (numsplits - 1)) (r, colid, v)) ps)
    (replicate numsplits []).

(** [left] and [right]: sample/NUMA-aware.cpp 82-84.  [cscOfItems_ends]: the constructor from tuples (MatModel). *)
Definition halves_end (dflt : V) (stdsort : list (nat * V) -> list (nat * V)) (A : csr V) (left right : csc V) : Prop :=
  exists l r, splitCsr A 2 = Ok [l; r] /\
    cscOfItems_ends dflt stdsort l (length l) (rows A / 2) (cols A) left /\
    cscOfItems_ends dflt stdsort r (length r) (rows A / 2) (cols A) right.
End Split.
