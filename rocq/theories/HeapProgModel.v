(** main of sample/HeapSpGEMM.cpp, 27-100: A * B on compressed columns.

    Simplifications.  As in HeapCscModel.v (numbers of any size instead of int), GenModel.v and IoModel.v; the macro KNL_EXE is not defined.  Of
    what is printed, the flags of Sorted (56-57), the number of operations (60-61), nnz and threads (90-91) are kept, not the times nor the
    compression ratio.  Memory: the number of cells of the arrays of C_csc that nobody can release any more.  The release of the input (96-97) is left out. *)
From Coq Require Import NArith ZArith String Ascii.
From stdpp Require Import gmap.
From Verif Require Import IoSpec IoModel MatModel ReportModel DriverModel GenModel HeapCscModel HashProdModel.
From Verif Require Import Base Spec.

Section HeapProg.
Context {V : Type} (dflt : V) (mul add : V -> V -> V) (ofInt : Z -> V) (stdsort : list (nat * V) -> list (nat * V)).
Context (generate : bool -> Z -> Z -> res (csc V * csc V)) (readBin : option text -> res (option (csc V)) -> Prop) (files : text -> option text).

(** CSC(): CSC.h 33; HeapSpGEMM.cpp 68 *)
Definition newCsc : csc V := mkCsc 0 0 0 [] [] [].
(** make_empty, and how many cells it leaves that have no owner from then on: CSC.h 49-60 *)
Definition emptyCsc (C : csc V) : csc V * nat :=
  (mkCsc 0 0 0 [] [] [], (if c_nnz C =? 0 then length (rowids C) + length (c_values C) else 0) + (if c_cols C =? 0 then length (colptr C) else 0)).

(** The objects A_csc, B_csc, C_csc: HeapSpGEMM.cpp 30, 68 *)
Definition threeObjs (A B C : csc V) : gmap nat (DriverModel.obj V) := <[0 := OCsc A]> (<[1 := OCsc B]> (<[2 := OCsc C]> ∅)).
(** [HeapSpGEMM(A_csc, B_csc, C_csc, multiplies, plus)] with [t] threads, and how many cells of the old C_csc it loses: HeapSpGEMM.cpp 71, 79.
    The call ends whatever the number of threads in the prefix sums is. *)
Definition heapCall (itmax t : nat) (A B C C' : csc V) (lost : nat) : Prop :=
  let ends nts := HeapCsc_ends mul add dflt (2 * itmax + 1) nts t 0 1 2 (threeObjs A B C) in
  (forall nts, exists s' l, ends nts s' l) /\ exists nts s', ends nts s' lost /\ deref_csc s' 2 = Ok C'.
(** The rounds [l] of the measured loop: HeapSpGEMM.cpp 77-86 *)
Fixpoint heapIters (itmax iters t : nat) (A B : csc V) (l : list nat) (C : csc V) (lost : nat) (C' : csc V) (lost' : nat) : Prop :=
  match l with
  | [] => C' = C /\ lost' = lost
  | i :: l => exists C1 l1, heapCall itmax t A B C C1 l1 /\
      let '(C2, l2) := if i <? iters - 1 then emptyCsc C1 else (C1, 0) in heapIters itmax iters t A B l C2 (lost + l1 + l2) C' lost'
  end.
(** One number of threads: nnz and threads as printed, and the cells lost.  HeapSpGEMM.cpp 66-93, and at 94 the destructor of C_csc (CSC.h 76-79) *)
Definition heapOne (itmax iters : nat) (A B : csc V) (t : nat) (line : nat * nat) (lost : nat) : Prop :=
  exists C1 l1, heapCall itmax t A B newCsc C1 l1 /\
  let '(C2, l2) := emptyCsc C1 in
  exists C3 l3, heapIters itmax iters t A B (seq 0 iters) C2 (l1 + l2) C3 l3 /\
  line = (c_nnz C3, t) /\
  let '(C4, l4) := emptyCsc C3 in
  let '(C5, l5) := emptyCsc C4 in
  lost = l3 + l4 + l5.
(** All numbers of threads: HeapSpGEMM.cpp 65-94 *)
Fixpoint heapAll (itmax iters : nat) (A B : csc V) (tnums : list nat) (lines : list (nat * nat)) (lost : nat) : Prop :=
  match tnums with
  | [] => lines = [] /\ lost = 0
  | t :: ts => exists line l1 lines2 l2, heapOne itmax iters A B t line l1 /\ heapAll itmax iters A B ts lines2 l2 /\ lines = line :: lines2 /\ lost = l1 + l2
  end.

(** main: the result, the flags and the number of operations, the lines of the loop, the cells lost.  HeapSpGEMM.cpp 25, 27-100; the numbers of
    threads as in HashSpGEMM.cpp (HeapSpGEMM.cpp 32-51) *)
Definition heapMain (itmax : nat) (argv : list text) (r : res (Z * option (bool * bool * nat) * list (nat * nat) * nat)) : Prop :=
  if length argv <? 4 then r = Ok ((-1)%Z, None, [], 0)
  else match prodThreads argv with
  | Err e => r = Err e
  | Ok tnums =>
    exists rI, setInputs dflt ofInt stdsort (Z.of_nat itmax) generate readBin files argv rI /\
    match (' (A, B) <- rI ;;
           sA <- sortedFlag (c_cols A) (colptr A) (rowids A) ;;
           sB <- sortedFlag (c_cols B) (colptr B) (rowids B) ;;
           Ok (A, B, sA, sB)) with
    | Err e => r = Err e
    | Ok (A, B, sA, sB) =>
      exists flop lines lost, getFlopCsc_always A B flop /\ heapAll itmax 10 A B tnums lines lost /\ r = Ok (0%Z, Some (sA, sB, flop), lines, lost)
    end
  end.
End HeapProg.
