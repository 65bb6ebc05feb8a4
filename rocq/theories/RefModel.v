(** Submatrices: SpRef, SpRef1, SpRef2 and intersect.  CSC.h 583-610, 655-836.

    Simplifications.  Indices are unbounded naturals.  [my_malloc<T>(n)] fills the array with [T()] as in MatModel.v; abort()
    is [AssertFail].  A pointer &p[i] may be formed anywhere, only accesses are checked.  In SpRef2 the buffer of the values is
    declared with the index type, so that function compiles only for NT = IT; the model takes any NT.  The two numbers maxlen
    and r of intersect are not used. *)
From Verif Require Import MatModel.
From Verif Require Export BitModel.
From Verif Require Import Base Spec.

Section Ref.
Context {V : Type} (dflt : V).

(** [(!l.empty()) && (l.back() > bound)], followed by abort(): CSC.h 725-732, 794-801; also 658-665 *)
Definition backCheck (l : list nat) (bound : nat) : res unit :=
  match last l with Some x => if bound <? x then Err AssertFail else Ok tt | None => Ok tt end.

(** The first while loop of SpRef: CSC.h 739-753; [fuel] bounds the number of rounds *)
Fixpoint refCount (fuel : nat) (X : csc V) (ri : list nat) (j k endIdx refnnz : nat) : res nat :=
  match fuel with
  | O => Err OutOfFuel
  | S fuel =>
    if (j <? endIdx) && (k <? length ri) then
      r <- get ri k ;;
      c <- get (rowids X) j ;;
      if r <? c then refCount fuel X ri j (k + 1) endIdx refnnz
      else if c <? r then refCount fuel X ri (j + 1) k endIdx refnnz
      else refCount fuel X ri j (k + 1) endIdx (refnnz + 1)
    else Ok refnnz
  end.

(** The second while loop of SpRef: CSC.h 764-777 *)
Fixpoint refFill (fuel : nat) (X : csc V) (ri : list nat) (j k endIdx : nat) (s : nat * list nat * list V) : res (nat * list nat * list V) :=
  match fuel with
  | O => Err OutOfFuel
  | S fuel =>
    if (j <? endIdx) && (k <? length ri) then
      r <- get ri k ;;
      c <- get (rowids X) j ;;
      if r <? c then refFill fuel X ri j (k + 1) endIdx s
      else if c <? r then refFill fuel X ri (j + 1) k endIdx s
      else
        let '(idx, ids, vals) := s in
        v <- get (c_values X) j ;;
        vals <- set_ vals idx v ;;
        ids <- set_ ids idx c ;;
        refFill fuel X ri j (k + 1) endIdx (idx + 1, ids, vals)
    else Ok s
  end.

(** The constructor CSC(mynnz, m, n, nt): CSC.h 34-43 *)
Definition newCsc (nz m n : nat) : res (list nat * list nat * list V) :=
  _ <- assert_ (negb (nz =? 0) && negb (n =? 0)) ;;
  Ok (replicate (n + 1) 0, replicate nz 0, replicate nz dflt).

(** SpRef: CSC.h 723-782 *)
Definition spRef (X : csc V) (ri ci : list nat) : res (csc V) :=
  _ <- backCheck ci (c_cols X) ;;
  _ <- backCheck ri (c_rows X) ;;
  refnnz <- for_ 0 (length ci) (fun i refnnz =>
      c <- get ci i ;;
      j <- get (colptr X) c ;;
      endIdx <- get (colptr X) (c + 1) ;;
      refCount (S (endIdx - j + length ri)) X ri j 0 endIdx refnnz) 0 ;;
  '(cp, ids, vals) <- newCsc refnnz (length ri) (length ci) ;;
  cp <- set_ cp 0 0 ;;
  '(cp, (_, ids, vals)) <- for_ 0 (length ci) (fun i '(cp, s) =>
      c <- get ci i ;;
      j <- get (colptr X) c ;;
      endIdx <- get (colptr X) (c + 1) ;;
      s <- refFill (S (endIdx - j + length ri)) X ri j 0 endIdx s ;;
      cp <- set_ cp (i + 1) (fst (fst s)) ;;
      Ok (cp, s)) (cp, (0, ids, vals)) ;;
  Ok (mkCsc (length ri) (length ci) refnnz cp ids vals).

(** SpRef1: CSC.h 792-836 *)
Definition spRef1 (X : csc V) (ri ci : list nat) : res (csc V) :=
  _ <- backCheck ci (c_cols X) ;;
  _ <- backCheck ri (c_rows X) ;;
  bmap <- bmReset (bmNew (length ri)) ;;
  bmap <- foldM bmSet ri bmap ;;
  refnnz <- for_ 0 (length ci) (fun i refnnz =>
      c <- get ci i ;;
      endIdx <- get (colptr X) (c + 1) ;;
      j <- get (colptr X) c ;;
      for_ j endIdx (fun j refnnz =>
        r <- get (rowids X) j ;;
        b <- bmGet bmap r ;;
        Ok (if b : bool then refnnz + 1 else refnnz)) refnnz) 0 ;;
  '(cp, ids, vals) <- newCsc refnnz (length ri) (length ci) ;;
  cp <- set_ cp 0 0 ;;
  '(cp, (_, ids, vals)) <- for_ 0 (length ci) (fun i '(cp, s) =>
      c <- get ci i ;;
      endIdx <- get (colptr X) (c + 1) ;;
      j <- get (colptr X) c ;;
      s <- for_ j endIdx (fun j '(idx, ids, vals) =>
          r <- get (rowids X) j ;;
          b <- bmGet bmap r ;;
          if b : bool then
            v <- get (c_values X) j ;;
            vals <- set_ vals idx v ;;
            ids <- set_ ids idx r ;;
            Ok (idx + 1, ids, vals)
          else Ok (idx, ids, vals)) s ;;
      cp <- set_ cp (i + 1) (fst (fst s)) ;;
      Ok (cp, s)) (cp, (0, ids, vals)) ;;
  Ok (mkCsc (length ri) (length ci) refnnz cp ids vals).

(** intersect on the column from [cidx1] on, with the output at position [cidx1] of the two buffers: CSC.h 584-610 *)
Fixpoint intersect (fuel : nat) (X : csc V) (ri : list nat) (cidx1 len_in j k idx : nat) (s : list nat * list V) : res (nat * (list nat * list V)) :=
  match fuel with
  | O => Err OutOfFuel
  | S fuel =>
    if (j <? len_in) && (k <? length ri) then
      r <- get ri k ;;
      c <- get (rowids X) (cidx1 + j) ;;
      if r <? c then intersect fuel X ri cidx1 len_in j (k + 1) idx s
      else if c <? r then intersect fuel X ri cidx1 len_in (j + 1) k idx s
      else
        let '(ids, vals) := s in
        v <- get (c_values X) (cidx1 + j) ;;
        vals <- set_ vals (cidx1 + idx) v ;;
        ids <- set_ ids (cidx1 + idx) c ;;
        intersect fuel X ri cidx1 len_in (j + 1) (k + 1) (idx + 1) (ids, vals)
    else Ok (idx, s)
  end.

(** SpRef2: CSC.h 655-713 *)
Definition spRef2 (X : csc V) (ri ci : list nat) : res (csc V) :=
  _ <- backCheck ci (c_cols X) ;;
  _ <- backCheck ri (c_rows X) ;;
  let cilen := length ci in
  nnz_ci <- for_ 0 cilen (fun i nnz_ci =>
      c <- get ci i ;;
      e <- get (colptr X) (c + 1) ;;
      b <- get (colptr X) c ;;
      Ok (nnz_ci + e - b)) 0 ;;
  '(len_out, out) <- for_ 0 cilen (fun i '(len_out, out) =>
      c <- get ci i ;;
      cidx1 <- get (colptr X) c ;;
      cidx2 <- get (colptr X) (c + 1) ;;
      '(n, out) <- intersect (S (cidx2 - cidx1 + length ri)) X ri cidx1 (cidx2 - cidx1) 0 0 0 out ;;
      len_out <- set_ len_out i n ;;
      Ok (len_out, out)) (replicate cilen 0, (replicate nnz_ci 0, replicate nnz_ci dflt)) ;;
  cp <- set_ (replicate (cilen + 1) 0) 0 0 ;;
  cp <- for_ 0 cilen (fun i cp =>
      p <- get cp i ;;
      n <- get len_out i ;;
      set_ cp (i + 1) (p + n)) cp ;;
  nz <- get cp cilen ;;
  '(ids, vals) <- for_ 0 cilen (fun i '(ids, vals) =>
      c <- get ci i ;;
      cidx1 <- get (colptr X) c ;;
      n <- get len_out i ;;
      p <- get cp i ;;
      ids <- for_ 0 n (fun k ids => x <- get (fst out) (cidx1 + k) ;; set_ ids (p + k) x) ids ;;
      vals <- for_ 0 n (fun k vals => x <- get (snd out) (cidx1 + k) ;; set_ vals (p + k) x) vals ;;
      Ok (ids, vals)) (replicate nz 0, replicate nz dflt) ;;
  Ok (mkCsc (length ri) cilen nz cp ids vals).
End Ref.
