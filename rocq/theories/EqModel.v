(** operator== of the matrix classes: CSR.h 468-536, CSC.h 543-581; ErrorTolerantEqual: utility.h 22-38.

    Simplifications.  The index type has [w] bits and is unsigned (as in IndexModel); the loop counters of type int in CSR.h
    are unbounded.  A pointer that was never set is an empty array.  The printing when the dimensions differ (its format %d
    fits only an int) and under DEBUG is left out.  A double is a rational number or NaN ([None]); there is no rounding, no
    infinity. *)
From Verif Require Export IndexModel.
From Coq Require Import QArith Qminmax Qabs.
Close Scope Q_scope.
From Verif Require Import Base Spec.

(** std::equal(p, p + n, q, eqv), with the arrays from position i on.  CSR.h 486-507, CSC.h 547-552. *)
Fixpoint stdEqual {A} (eqv : A -> A -> res bool) (n i : nat) (p q : list A) : res bool :=
  match n with
  | O => Ok true
  | S n =>
    a <- get p i ;;
    b <- get q i ;;
    e <- eqv a b ;;
    if e : bool then stdEqual eqv n (i + 1) p q else Ok false
  end.

Section Eq.
Context {V : Type} (eqv : V -> V -> res bool).

(** CSC<IT, NT>::operator==: CSC.h 543-581 *)
Definition eqCsc (X Y : csc V) : res bool :=
  if negb (c_nnz X =? c_nnz Y) || negb (c_rows X =? c_rows Y) || negb (c_cols X =? c_cols Y) then Ok false
  else
    same <- stdEqual (fun a b => Ok (a =? b)) (c_cols X + 1) 0 (colptr X) (colptr Y) ;;
    same <- (if same : bool then stdEqual (fun a b => Ok (a =? b)) (c_nnz X) 0 (rowids X) (rowids Y) else Ok false) ;;
    if same : bool then stdEqual eqv (c_nnz X) 0 (c_values X) (c_values Y) else Ok false.

Context (w : N).
(** A loop [tmp[i] = p[i] - 1]: CSR.h 480-485, 489-494 *)
Definition copyMinus1 (p : list N) (n : nat) : res (list N) :=
  for_ 0 n (fun i tmp => x <- get p i ;; set_ tmp i (wadd w x (2 ^ w - 1))) (replicate n 0%N).
(** The comparison of two index arrays.  CSR.h 486-487, 495-496, 501-502; CSC.h 547-548. *)
Definition eqIdx (p q : list N) (n : nat) : res bool := stdEqual (fun a b => Ok (a =? b)%N) n 0 p q.

(** CSR<IT, NT>::operator==: CSR.h 468-536 *)
Definition eqCsr (X Y : csrI V) : res bool :=
  if negb (i_nnz X =? i_nnz Y)%N || negb (i_rows X =? i_rows Y)%N || negb (i_cols X =? i_cols Y)%N then Ok false
  else
    let r1 := N.to_nat (i_rows X) + 1 in
    let nz := N.to_nat (i_nnz X) in
    same <- (if negb (eqb (i_zerobased X) (i_zerobased Y)) then
               if negb (i_zerobased X) then
                 tmp_rowptr <- copyMinus1 (i_rowptr X) r1 ;;
                 tmp_colids <- copyMinus1 (i_colids X) nz ;;
                 same <- eqIdx tmp_rowptr (i_rowptr Y) r1 ;;
                 if same : bool then eqIdx tmp_colids (i_colids Y) nz else Ok false
               else
                 tmp_rowptr <- copyMinus1 (i_rowptr Y) r1 ;;
                 tmp_colids <- copyMinus1 (i_colids Y) nz ;;
                 same <- eqIdx tmp_rowptr (i_rowptr X) r1 ;;
                 if same : bool then eqIdx tmp_colids (i_colids X) nz else Ok false
             else
               same <- eqIdx (i_rowptr X) (i_rowptr Y) r1 ;;
               if same : bool then eqIdx (i_colids X) (i_colids Y) nz else Ok false) ;;
    if same : bool then stdEqual eqv nz 0 (i_values X) (i_values Y) else Ok false.
End Eq.

(** ErrorTolerantEqual<double>(EPSILON): utility.h 20, 22-38; std::max(a, b) is a < b ? b : a *)
Definition dbl := option Q.
(** a == b for double: utility.h 22-38 *)
Definition deq (a b : dbl) : bool := match a, b with Some x, Some y => Qeq_bool x y | _, _ => false end.
(** a < b for double: utility.h 22-38 *)
Definition dlt (a b : dbl) : bool := match a, b with Some x, Some y => negb (Qle_bool y x) | _, _ => false end.
(** a - b, a / b for double, exact: utility.h 22-38 *)
Definition dop (f : Q -> Q -> Q) (a b : dbl) : dbl := match a, b with Some x, Some y => Some (f x y) | _, _ => None end.
(** fabs: utility.h 22-38 *)
Definition dabs (a : dbl) : dbl := match a with Some x => Some (Qabs x) | None => None end.
(** std::max: utility.h 22-38 *)
Definition dmax (a b : dbl) : dbl := if dlt a b then b else a.
(** operator(): utility.h 22-38 *)
Definition tolDouble (a b : dbl) : res bool :=
  if deq a b then Ok true
  else Ok (dlt (dabs (dop Qminus a b)) (Some (1 # 1000)%Q) ||
           dlt (dop Qdiv (dabs (dop Qminus a b)) (dmax (dabs a) (dabs b))) (Some (1 # 1000)%Q)).

(** A signed integer type of [w] bits: the result of an operation must be representable.
    utility.h 22-38 with an integer T. *)
Definition inInt (w : N) (z : Z) : res Z :=
  if ((- 2 ^ (Z.of_N w - 1) <=? z) && (z <? 2 ^ (Z.of_N w - 1)))%Z then Ok z else Err OutOfBounds.
(** ErrorTolerantEqual<T>(EPSILON) for such a type: the conversion of 0.001 to T is 0.  utility.h 20, 22-38 *)
Definition tolInt (w : N) (a b : Z) : res bool :=
  if (a =? b)%Z then Ok true
  else
    d <- inInt w (a - b) ;;
    d <- inInt w (Z.abs d) ;;
    if (d <? 0)%Z then Ok true
    else
      x <- inInt w (Z.abs a) ;;
      y <- inInt w (Z.abs b) ;;
      Ok (Z.quot d (if (x <? y)%Z then y else x) <? 0)%Z.
