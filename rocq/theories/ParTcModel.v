(** main of sample/all_parallel_tc.cpp, 28-232.

    Simplifications.  As in RunModel.v, AllMainModel.v and the models of the products.  atoi is left out: the number it gives is the input
    and not negative.  VALUETYPE (double) is a type V with the operations the program uses; [itmax] is the largest INDEXTYPE (int64_t).
    The program prints nnz, an int64_t, with %d (144, 176, 221), which is not defined in C; here the lower 32 bits are printed as an int.
    Of what is printed, the number of operations (65) and names, nnz and threads of the lines (144-145, 176-177, 221-222) are kept, not the
    times nor the compression ratio.  The calls of Sorted (60-61, 112-113, 150-151), which write nothing but the two flags, are put before
    the loops.  The block 69-110 is a comment.  The end of main (228-229) is left out; the arrays of the input matrix are kept apart from
    the memory of the output object. *)
From Coq Require Import NArith ZArith String Ascii.
From stdpp Require Import gmap.
From Verif Require Import IoSpec IoModel MatModel ReportModel MaskHashModel.
From Verif Require Export AllMainModel.
From Verif Require Import Base Spec.

(** What a loop prints: the name of the line 144 and the numbers of 144 and 145.  all_parallel_tc.cpp 144-145, 176-177, 221-222 *)
Record pline := mkPLine { p_name : text; p_nnz : Z; p_threads : nat }.
(** An int64_t that printf reads as an int: all_parallel_tc.cpp 144, 176, 221 *)
Definition asInt (n : nat) : Z := let z := (Z.of_nat n mod 2 ^ 32)%Z in if (z <? 2 ^ 31)%Z then z else (z - 2 ^ 32)%Z.

Section ParTc.
Context {V : Type} (dflt zero : V) (mul add : V -> V -> V) (ofInt : Z -> V).
Context (pick : gmap nat (ablock V) -> nat) (null0 : bool) (stdsort : list (nat * V) -> list (nat * V)).
Notation heap := (gmap nat (ablock V)).

(** mxm_hash_mask for keys of 64 bits: mask_hash_mult.h 33-157; all_parallel_tc.cpp 193, 210 *)
Definition parHash (itmax : nat) (A B M : csr V) (t : nat) : csr V -> Prop :=
  endsAny (fun _ => True) (fun nts => mxmHashMask_ends dflt mul add 64 (itmax + 1) (2 * itmax + 1) nts t A B M).

(** A call, and [C_csr.make_empty()] if [empty]: all_parallel_tc.cpp 125-126, 133-139; 159-160, 165-171; 193-203, 210-216 *)
Definition parStep (k : kind) (prod : nat -> nat -> csr V -> Prop) (t : nat) (empty : bool) (s : obj * heap) (r : res (obj * heap)) : Prop :=
  exists r1, call dflt pick null0 k prod t s r1 /\ r = (s <- r1 ;; if empty then makeEmpty (fst s) (snd s) else Ok s).
(** The iterations [is], ITERS = 4: all_parallel_tc.cpp 30, 129-140, 163-172, 206-217 *)
Fixpoint parIters (k : kind) (prod : nat -> nat -> csr V -> Prop) (t : nat) (is : list nat) (s : obj * heap) (r : res (obj * heap)) : Prop :=
  match is with
  | [] => r = Ok s
  | i :: is => exists r1, parStep k prod t (i <? 4 - 1) s r1 /\ match r1 with Err e => r = Err e | Ok s => parIters k prod t is s r end
  end.
(** One of the three loops, for its one number of threads: all_parallel_tc.cpp 118-148, 153-180, 185-225; the last [makeEmpty] is the
    destructor of C_csr. *)
Definition parOne (t : nat) (b : abench V) (h : heap) (r : res (heap * list pline)) : Prop :=
  exists r1, parStep (a_kind b) (a_prod b) t true (defaultCtor, h) r1 /\
  match r1 with
  | Err e => r = Err e
  | Ok s => exists r2, parIters (a_kind b) (a_prod b) t (seq 0 4) s r2 /\
    r = (' (C, h) <- r2 ;; let l := mkPLine (a_label b) (asInt (o_nnz C)) t in ' (C, h) <- makeEmpty C h ;; ' (C, h) <- makeEmpty C h ;; Ok (h, [l]))
  end.
(** The three loops; the matrix is both factors and the mask: all_parallel_tc.cpp 118-225 *)
Definition parBenches (itmax : nat) (A : csr V) (Ac : csc V) : list (abench V) :=
  [ mkABench (str "MaskedSPASpGEMM") KOver (fun t _ => allSpa dflt mul add itmax A A A t);
    mkABench (str "DotSpGEMM") (KNohash (rows A) (nnz A)) (fun t nz => allNohash dflt zero mul add itmax A A Ac t nz);
    mkABench (str "mxm_hash_mask") KOver (fun t _ => parHash itmax A A A t) ].
(** main: the result, the printed number of operations and the lines.  [file]: the text of the file argv[1]; [threads]: argv[2] ([None]:
    argc < 3).  all_parallel_tc.cpp 32-231 *)
Definition parMain (itmax : nat) (file : option text) (threads : option nat) (h : heap) (r : res (heap * (Z * option nat * list pline))) : Prop :=
  match threads with
  | None => r = Ok (h, ((-1)%Z, None, []))
  | Some t => exists rA, inputA dflt ofInt stdsort itmax file rA /\
    match (' (X, A) <- rA ;; flop <- getFlopCsr A A ;;
           _ <- sortedFlag (c_cols X) (colptr X) (rowids X) ;; _ <- sortedFlag (rows A) (rowptr A) (colids A) ;;
           _ <- sortedFlag (c_cols X) (colptr X) (rowids X) ;; _ <- sortedFlag (rows A) (rowptr A) (colids A) ;; Ok (X, A, flop)) with
    | Err e => r = Err e
    | Ok (X, A, flop) => exists r1, seqA (parOne t) (parBenches itmax A X) h r1 /\ r = (' (h, ls) <- r1 ;; Ok (h, (0%Z, Some flop, ls)))
    end
  end.
End ParTc.
