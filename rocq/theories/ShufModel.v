(** shuffleIds: CSR.h 647-663, CSC.h 525-541.

    Simplifications.  Indices are unbounded naturals; [signed] says whether the index type is a signed one.  The generator
    mt19937_64 with its distribution is a function [draw]: the k-th draw of the run, from the range [0, b].  The
    constructor uniform_int_distribution(a, b) requires a <= b; a call outside that precondition is [AssertFail]. *)
From Verif Require Import Base Spec.

Section Shuf.
Context {V : Type} (signed : bool) (draw : nat -> nat -> nat).

(** [uniform_int_distribution<IT> rand_scale(0, width - 1)]: CSR.h 652, CSC.h 530.  width - 1 is -1 for a signed type
    and the largest value for an unsigned one when the width is 0. *)
Definition randScale (width : nat) : res unit := assert_ (negb (signed && (width =? 0))).

(** The loop over one row or column: CSR.h 653-661, CSC.h 531-539; the first component counts the draws *)
Definition shuffleRange (offset e : nat) (s : nat * list nat * list V) : res (nat * list nat * list V) :=
  let width := e - offset in
  for_ offset e (fun j '(k, ids, vals) =>
    let target := draw k (width - 1) in
    tmpId <- get ids (offset + target) ;;
    tmpVal <- get vals (offset + target) ;;
    x <- get ids j ;;
    ids <- set_ ids (offset + target) x ;;
    y <- get vals j ;;
    vals <- set_ vals (offset + target) y ;;
    ids <- set_ ids j tmpId ;;
    vals <- set_ vals j tmpVal ;;
    Ok (k + 1, ids, vals)) s.

(** The loop over the rows or columns: CSR.h 649-662, CSC.h 527-540 *)
Definition shuffleArrays (n : nat) (ptr ids : list nat) (vals : list V) : res (list nat * list V) :=
  '(_, ids, vals) <- for_ 0 n (fun i s =>
      offset <- get ptr i ;;
      e <- get ptr (i + 1) ;;
      _ <- randScale (e - offset) ;;
      shuffleRange offset e s) (0, ids, vals) ;;
  Ok (ids, vals).

(** CSR<IT, NT>::shuffleIds: CSR.h 647-663 *)
Definition shuffleCsr (X : csr V) : res (csr V) :=
  '(ids, vals) <- shuffleArrays (rows X) (rowptr X) (colids X) (values X) ;;
  Ok (mkCsr (rows X) (cols X) (nnz X) (rowptr X) ids vals).

(** CSC<IT, NT>::shuffleIds: CSC.h 525-541 *)
Definition shuffleCsc (X : csc V) : res (csc V) :=
  '(ids, vals) <- shuffleArrays (c_cols X) (colptr X) (rowids X) (c_values X) ;;
  Ok (mkCsc (c_rows X) (c_cols X) (c_nnz X) (colptr X) ids vals).
End Shuf.
