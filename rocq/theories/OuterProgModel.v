(** main of sample/OuterSpGEMM.cpp, 49-157: A * B by outer products.

    Simplifications.  As in OuterModel.v, ShufModel.v, GenModel.v, ReportModel.v and IoModel.v.  Of what is printed, the flags of Sorted (75-78), the
    number of operations (90-94), nnz and threads (133-138) are kept, not the times nor the compression ratio.  The calls of printf print
    a long long int with %d (133-135); that number is not kept.  Memory: the number of cells of arrays of OuterSpGEMM and of C_csr that nobody can release any
    more.  The release of the input (152-154) is left out. *)
From Coq Require Import NArith ZArith String Ascii.
From stdpp Require Import gmap.
From Verif Require Import IoSpec IoModel MatModel ReportModel DriverModel ShufModel GenModel AllMainModel SpaMainModel OuterModel.
From Verif Require Import Base Spec.

Section OuterProg.
Context {V : Type} (dflt : V) (mul add : V -> V -> V) (ofInt : Z -> V) (stdsort : list (nat * V) -> list (nat * V)).
Context (generate : bool -> Z -> Z -> res (csc V * csc V)) (readBin : option text -> res (option (csc V)) -> Prop) (files : text -> option text).
Context (drawA drawB : nat -> nat -> nat).

(** CSR(): CSR.h 25; OuterSpGEMM.cpp 100 *)
Definition newCsr : csr V := mkCsr 0 0 0 [] [] [].
(** make_empty, and how many cells it leaves that have no owner from then on: CSR.h 52-66 *)
Definition emptyCsr (C : csr V) : csr V * nat :=
  (mkCsr 0 0 0 [] [] [], (if nnz C =? 0 then length (colids C) + length (values C) else 0) + (if rows C =? 0 then length (rowptr C) else 0)).
(** The objects A_csc, B_csr, C_csr: OuterSpGEMM.cpp 53, 73, 100 *)
Definition outerObjs (A : csc V) (B C : csr V) : gmap nat (DriverModel.obj V) := <[0 := OCsc A]> (<[1 := OMat B]> (<[2 := OMat C]> ∅)).

(** The numbers of threads: OuterSpGEMM.cpp 50, 56-68 *)
Definition outerThreads (argv : list text) : res (list nat) :=
  if length argv <? 6 then Ok [1] else a5 <- arg argv 5 ;; t <- atoi a5 ;; Ok [Z.to_nat t].
(** The input as the calls see it, and the four flags: OuterSpGEMM.cpp 71-81 *)
Definition outerInput (rI : res (csc V * csc V)) : res (csc V * csr V * list bool) :=
  ' (Ac, Bc) <- rI ;;
  B <- csrOfCsc dflt Bc ;;
  A <- csrOfCsc dflt Ac ;;
  f1 <- sortedFlag (c_cols Ac) (colptr Ac) (rowids Ac) ;;
  f2 <- sortedFlag (rows A) (rowptr A) (colids A) ;;
  f3 <- sortedFlag (c_cols Bc) (colptr Bc) (rowids Bc) ;;
  f4 <- sortedFlag (rows B) (rowptr B) (colids B) ;;
  A <- shuffleCsc true drawA Ac ;;
  B <- shuffleCsr true drawB B ;;
  Ok (A, B, [f1; f2; f3; f4]).

(** A number given as an argument, as a uint16_t: OuterSpGEMM.cpp 103, 108; outer_mult.h 219-220 *)
Definition numArg (argv : list text) (k : nat) : res nat := a <- arg argv k ;; z <- atoi a ;; Ok (Z.to_nat (z mod 2 ^ 16)).
(** [OuterSpGEMM(A_csc, B_csr, C_csr, atoi(argv[6]), atoi(argv[7]), 1)] with [t] threads: the new C_csr and the cells lost.  OuterSpGEMM.cpp 103, 108 *)
Definition outerCall (itmax : nat) (argv : list text) (t : nat) (A : csc V) (B C : csr V) (r : res (csr V * nat)) : Prop :=
  match (nb <- numArg argv 6 ;; bw <- numArg argv 7 ;; Ok (nb, bw)) with
  | Err e => r = Err e
  | Ok (nb, bw) => exists nts o, Outer_outcome mul add (2 * itmax + 1) nts t 0 1 2 nb bw (outerObjs A B C) o /\
      r = (' (s, lost) <- o ;; C <- deref s 2 ;; Ok (C, lost))
  end.
(** The rounds [l] of the measured loop: OuterSpGEMM.cpp 106-126 *)
Fixpoint outerIters (itmax iters : nat) (argv : list text) (t : nat) (A : csc V) (B : csr V) (l : list nat) (C : csr V) (lost : nat) (r : res (csr V * nat)) : Prop :=
  match l with
  | [] => r = Ok (C, lost)
  | i :: l => exists r1, outerCall itmax argv t A B C r1 /\
      match r1 with
      | Err e => r = Err e
      | Ok (C1, l1) => let '(C2, l2) := if negb (i =? iters - 1) then emptyCsr C1 else (C1, 0) in outerIters itmax iters argv t A B l C2 (lost + l1 + l2) r
      end
  end.
(** One number of threads: nnz and threads as printed, and the cells lost.  OuterSpGEMM.cpp 98-140, and at 141 the destructor of C_csr (CSR.h 68) *)
Definition outerOne (itmax iters : nat) (argv : list text) (A : csc V) (B : csr V) (t : nat) (r : res ((nat * nat) * nat)) : Prop :=
  exists r1, outerCall itmax argv t A B newCsr r1 /\
  match r1 with
  | Err e => r = Err e
  | Ok (C1, l1) =>
    let '(C2, l2) := emptyCsr C1 in
    exists r2, outerIters itmax iters argv t A B (seq 0 iters) C2 (l1 + l2) r2 /\
    r = (' (C3, l3) <- r2 ;;
         let '(C4, l4) := emptyCsr C3 in
         let '(C5, l5) := emptyCsr C4 in
         Ok ((nnz C3, t), l3 + l4 + l5))
  end.
(** All numbers of threads: OuterSpGEMM.cpp 97-141 *)
Fixpoint outerAll (itmax iters : nat) (argv : list text) (A : csc V) (B : csr V) (tnums : list nat) (r : res (list (nat * nat) * nat)) : Prop :=
  match tnums with
  | [] => r = Ok ([], 0)
  | t :: ts => exists r1, outerOne itmax iters argv A B t r1 /\
      match r1 with
      | Err e => r = Err e
      | Ok (line, l1) => exists r2, outerAll itmax iters argv A B ts r2 /\ r = (' (lines, l2) <- r2 ;; Ok (line :: lines, l1 + l2))
      end
  end.

(** main: the result, the flags and the number of operations, the lines of the loop, the cells lost.  OuterSpGEMM.cpp 28, 49-157.  IT has 32 bits (27) *)
Definition outerMain (itmax : nat) (argv : list text) (r : res (Z * option (list bool * N) * list (nat * nat) * nat)) : Prop :=
  if length argv <? 4 then r = Ok ((-1)%Z, None, [], 0)
  else match outerThreads argv with
  | Err e => r = Err e
  | Ok tnums =>
    exists rI, setInputs dflt ofInt stdsort (Z.of_nat itmax) generate readBin files argv rI /\
    match outerInput rI with
    | Err e => r = Err e
    | Ok (A, B, flags) =>
      exists rf, getFlopOuter_returns 32 A B rf /\
      match rf with
      | Err e => r = Err e
      | Ok flop => exists r1, outerAll itmax 15 argv A B tnums r1 /\ r = (' (lines, lost) <- r1 ;; Ok (0%Z, Some (flags, flop), lines, lost))
      end
    end
  end.
End OuterProg.
