(** main of sample/HashSpGEMM.cpp, 31-115.

    Simplifications.  As in SampleModel.v, SpaMainModel.v, GenModel.v, ShufModel.v, HashHwModel.v and HashMainModel.v; the macro KNL_EXE is not
    defined.  Of what is printed, the number of operations (73), the ten values (86-87), nnz and threads (105-106) are kept, not the flags of
    Sorted, the times nor the compression ratio.  The end of main (111-112) is left out. *)
From Coq Require Import NArith ZArith String Ascii.
From stdpp Require Import gmap.
From Verif Require Import IoSpec IoModel MatModel ReportModel ShufModel GenModel HashHwModel.
From Verif Require Export SpaMainModel.
From Verif Require Import Base Spec.

(** What the loop prints: the ten values, nnz, threads.  HashSpGEMM.cpp 86-88, 105-106 *)
Record pline (V : Type) := mkPLine { pl_first : list V; pl_nnz : nat; pl_threads : nat }.
Arguments mkPLine {V} _ _ _.

Section HashProd.
Context {V : Type} (dflt : V) (mul add : V -> V -> V) (ofInt : Z -> V).
Context (pick : gmap nat (ablock V) -> nat) (null0 : bool) (stdsort : list (nat * V) -> list (nat * V)).
Context (generate : bool -> Z -> Z -> res (csc V * csc V)) (readBin : option text -> res (option (csc V)) -> Prop).
Context (files : text -> option text) (drawA drawB : nat -> nat -> nat).
Notation heap := (gmap nat (ablock V)).

(** The numbers of threads: HashSpGEMM.cpp 45-60 *)
Definition prodThreads (argv : list text) : res (list nat) :=
  if length argv <? 6 then Ok [32; 64] else a5 <- arg argv 5 ;; t <- atoi a5 ;; Ok [Z.to_nat t].
(** The two matrices, by rows, with shuffled rows: HashSpGEMM.cpp 63-69; sample_common.hpp 200-212 *)
Definition shuffledPair (rI : res (csc V * csc V)) : res (csr V * csr V) :=
  ' (Ac, Bc) <- rI ;;
  A <- csrOfCsc dflt Ac ;;
  B <- csrOfCsc dflt Bc ;;
  _ <- sortedFlag (rows A) (rowptr A) (colids A) ;;
  _ <- sortedFlag (rows B) (rowptr B) (colids B) ;;
  A <- shuffleCsr true drawA A ;;
  B <- shuffleCsr true drawB B ;;
  Ok (A, B).

(** [HashSpGEMM<true>] with [t] threads: HashSpGEMM.cpp 37, 85, 94; hash_mult_hw.h 183-207 *)
Definition sortedHash (itmax : nat) (A B : csr V) (t : nat) : csr V -> Prop :=
  endsAny (fun _ => True) (fun nts => hashSpGEMM_ends dflt mul add 32 (itmax + 1) stdsort true (2 * itmax + 1) nts t A B).
(** One number of threads: HashSpGEMM.cpp 80-108, and at 109 the destructor of C_csr.  [iters]: ITERS *)
Definition prodOne (itmax iters : nat) (A B : csr V) (t : nat) (h : heap) (r : res (heap * list (pline V))) : Prop :=
  let b := mkABench (str "HashSpGEMM") KOver (fun t _ => sortedHash itmax A B t) in
  exists r1, call dflt pick null0 (a_kind b) (a_prod b) t (defaultCtor, h) r1 /\
  match (s <- r1 ;; first <- firstTen (fst s) (snd s) ;; s <- makeEmpty (fst s) (snd s) ;; Ok (first, s)) with
  | Err e => r = Err e
  | Ok (first, s) => exists r2, smpIters dflt pick null0 b iters t (seq 0 iters) s r2 /\
      r = (' (C, h) <- r2 ;;
           let l := mkPLine first (o_nnz C) t in
           ' (C, h) <- makeEmpty C h ;;
           ' (C, h) <- makeEmpty C h ;;
           Ok (h, [l]))
  end.

(** main: the result, the printed number of operations and what the loop prints.  HashSpGEMM.cpp 33, 35-115 *)
Definition prodMain (itmax : nat) (argv : list text) (h : heap) (r : res (heap * (Z * option nat * list (pline V)))) : Prop :=
  if length argv <? 4 then r = Ok (h, ((-1)%Z, None, []))
  else match prodThreads argv with
  | Err e => r = Err e
  | Ok tnums =>
    exists rI, setInputs dflt ofInt stdsort (Z.of_nat itmax) generate readBin files argv rI /\
    match (' (A, B) <- shuffledPair rI ;; flop <- getFlopCsr A B ;; Ok (A, B, flop)) with
    | Err e => r = Err e
    | Ok (A, B, flop) =>
      exists r1, seqA (prodOne itmax 10 A B) tnums h r1 /\ r = (' (h, ls) <- r1 ;; Ok (h, (0%Z, Some flop, ls)))
    end
  end.
End HashProd.
