(** CSR.h: index bases and the sum of all values. *)
From Verif Require Import ParModel.
From Verif Require Export Base.
From Coq Require Import QArith.
Close Scope Q_scope.

Section Index.
Context {V : Type}.
(** An index type of [w] bits, unsigned: arithmetic is modulo 2^w. *)
Context (w : N).
(** Addition of that type: CSR.h 244-460 *)
Definition wadd (a b : N) : N := ((a + b) mod 2 ^ w)%N.

(** The members of CSR: CSR.h 108-115.  A pointer that was never set is an empty array here, so any
    access through it is [OutOfBounds]. *)
Record csrI := mkCsrI {
  i_rows : N; i_cols : N; i_nnz : N;
  i_rowptr : list N; i_colids : list N; i_values : list V;
  i_zerobased : bool
}.

(** std::transform(p, p + n, p, bind2nd(plus<IT>(), d)): CSR.h 72-75, 82-85 *)
Definition transformPlus (p : list N) (n : nat) (d : N) : res (list N) :=
  for_ 0 n (fun i p => x <- get p i ;; set_ p i (wadd x d)) p.

(** [ConvertOneBased]: CSR.h 69-78.  Result: returned flag and the object. *)
Definition convertOneBased (X : csrI) : res (bool * csrI) :=
  if negb (i_zerobased X) then Ok (false, X)
  else
    rp <- transformPlus (i_rowptr X) (N.to_nat (i_rows X) + 1) 1 ;;
    ci <- transformPlus (i_colids X) (N.to_nat (i_nnz X)) 1 ;;
    Ok (true, mkCsrI (i_rows X) (i_cols X) (i_nnz X) rp ci (i_values X) false).

(** [ConvertZeroBased]: CSR.h 79-88; static_cast<IT>(-1) is 2^w - 1. *)
Definition convertZeroBased (X : csrI) : res (bool * csrI) :=
  if i_zerobased X then Ok (true, X)
  else
    rp <- transformPlus (i_rowptr X) (N.to_nat (i_rows X) + 1) (2 ^ w - 1) ;;
    ci <- transformPlus (i_colids X) (N.to_nat (i_nnz X)) (2 ^ w - 1) ;;
    Ok (false, mkCsrI (i_rows X) (i_cols X) (i_nnz X) rp ci (i_values X) true).

(** The default constructor: CSR.h 25 *)
Definition csrI_default : csrI := mkCsrI 0 0 0 [] [] [] true.
End Index.
Arguments csrI : clear implicits.

(** Sum with an OpenMP reduction: CSR.h 91-100.  The accumulator has the index type, so each step is
    [acc = (IT)(acc + value)]; [step] is that step and [plus] the addition of the index type.  The
    iterations are distributed over the threads in any way ([asg]); the private sums are added to the
    initial 0 in any order ([ord]). *)
Section Sum.
Context {A V : Type} (zero : A) (step : A -> V -> A) (plus : A -> A -> A).
(** The private sum of a thread: CSR.h 94-98 *)
Definition threadSum (values : list V) (its : list nat) : res A :=
  foldM (fun acc i => v <- get values i ;; Ok (step acc v)) its zero.
(** sumall: CSR.h 91-100 *)
Definition sumall_result (values : list V) (nz : nat) (r : A) : Prop :=
  exists asg ord sums, schedule nz asg /\ Forall2 (fun its s => threadSum values its = Ok s) asg sums /\
    ord ≡ₚ sums /\ r = fold_left plus ord zero.
End Sum.

(** The step for integer values and a w-bit accumulator: CSR.h 97 *)
Definition stepInt (w : N) (acc : Z) (v : Z) : Z := ((acc + v) mod 2 ^ Z.of_N w)%Z.
(** The reduction +: CSR.h 94 *)
Definition plusInt (w : N) (a b : Z) : Z := ((a + b) mod 2 ^ Z.of_N w)%Z.
(** The step for floating-point values (as rationals, without rounding) and an integer accumulator:
    conversion truncates towards zero.  CSR.h 97 *)
Definition qtrunc (q : Q) : Z := Z.quot (Qnum q) (Zpos (Qden q)).
(** sum += values[i]: CSR.h 97 *)
Definition stepQ (acc : Z) (v : Q) : Z := qtrunc (inject_Z acc + v).
