(** Outcome monad, checked arrays and loop combinators used by every model file.
    These are modelling vocabulary, not code of /repo. *)
From stdpp Require Export list.
From Coq Require Export Sorted ZArith NArith Lia ZifyBool ZifyNat ZifyN.

(** What can go wrong in a C++ execution; undefined behaviour is an explicit outcome.
    No code of its own: the outcomes of the C++ language and of assert (e.g. 1A.h 83). *)
Inductive fault :=
| OutOfBounds      (* access outside an array *)
| Uninit           (* use of a cell that was never written *)
| AssertFail       (* assert(...) fails (assertions enabled) *)
| Misaligned       (* access through a misaligned pointer *)
| DivByZero
| UseAfterFree     (* access to an array that was freed *)
| DataRace         (* unordered accesses to one location, one of them a write (OuterModel; elsewhere races are stated apart) *)
| OutOfFuel.       (* the loop did not finish within the fuel: non-termination *)

(** The result of code that can go wrong, used for every function (e.g. common.h 106-115). *)
Inductive res (A : Type) := Ok (a : A) | Err (f : fault).
Arguments Ok {A} a.
Arguments Err {A} f.

(** Sequencing of two statements; a fault ends the execution (e.g. common.h 106-115). *)
Definition bind {A B} (e : res A) (k : A -> res B) : res B :=
  match e with Ok a => k a | Err f => Err f end.

Notation "x <- e ;; k" := (bind e (fun x => k))
  (at level 100, e at next level, right associativity).
Notation "' p <- e ;; k" := (bind e (fun x => match x with p => k end))
  (at level 100, p strict pattern, e at next level, right associativity).

(** assert(b), assertions enabled (e.g. 1A.h 83, common.h 17-21) *)
Definition assert_ (b : bool) : res unit := if b then Ok tt else Err AssertFail.

(** Checked array read / write.  a[i], read (e.g. M.rowptr[row], MSAAlgorithm.h 44). *)
Definition get {A} (l : list A) (i : nat) : res A :=
  match l !! i with Some a => Ok a | None => Err OutOfBounds end.
(** a[i] = x, checked (e.g. rowNvals[row] = 0, masked-spgemm.h 75) *)
Definition set_ {A} (l : list A) (i : nat) (a : A) : res (list A) :=
  if i <? length l then Ok (<[i:=a]> l) else Err OutOfBounds.
(** Read of a possibly uninitialised cell.  E.g. entry.value, MSAAlgorithm.h 187. *)
Definition getI {A} (l : list (option A)) (i : nat) : res A :=
  match l !! i with Some (Some a) => Ok a | Some None => Err Uninit | None => Err OutOfBounds end.

(** [for (i = lo; i < hi; ++i) body].  [n] iterations from [i] on (e.g. masked-spgemm.h 69, 170). *)
Fixpoint for_n {S} (n i : nat) (body : nat -> S -> res S) (s : S) : res S :=
  match n with
  | O => Ok s
  | Datatypes.S n' => s' <- body i s ;; for_n n' (Datatypes.S i) body s'
  end.
(** E.g. masked-spgemm.h 69, 170 *)
Definition for_ {S} (lo hi : nat) (body : nat -> S -> res S) (s : S) : res S :=
  for_n (hi - lo) lo body s.

(** Range-based for over a container.  E.g. the loop over _dirtyIndices, 1A.h 141, 154. *)
Fixpoint foldM {S A} (f : S -> A -> res S) (l : list A) (s : S) : res S :=
  match l with
  | [] => Ok s
  | a :: l' => s' <- f s a ;; foldM f l' s'
  end.

(** Output cursor (currColId / currValue): the entries written so far and the
    number of cells available behind the start of the cursor.  A write past the
    capacity is out of bounds.  Simplification: the two pointers currColId and
    currValue advance together in every kernel and are kept as one cursor.  masked-spgemm.h 62-65, 168-169. *)
Record out (V : Type) := mkOut { o_done : list (nat * V); o_cap : nat }.
Arguments mkOut {V} _ _.
Arguments o_done {V} _.
Arguments o_cap {V} _.

(** [*(currColId++) = c; *(currValue++) = v;].  MSAAlgorithm.h 186-187. *)
Definition emit {V} (o : out V) (c : nat) (v : V) : res (out V) :=
  if length (o_done o) <? o_cap o
  then Ok (mkOut (o_done o ++ [(c, v)]) (o_cap o))
  else Err OutOfBounds.
