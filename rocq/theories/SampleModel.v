(** main of sample/InnerSpGEMM.cpp, 26-120, and the measuring loop of the programs in sample/.

    Simplifications.  As in RunModel.v, AllMainModel.v and NohashModel.v.  atoi is left out: the number it gives is the input and not
    negative; the macro KNL_EXE is not defined.  VALUETYPE (double) is a type V with the operations the program uses; [itmax] is the largest
    INDEXTYPE (int).  Of what is printed, the number of operations (79) and name, nnz and threads of the lines 109-110 are kept, not the
    times nor the compression ratio.  The end of main (114-117) is left out; the arrays of the input matrices are kept apart from the memory
    of the output object.  The template parameter sortOutput of innerSpGEMM_nohash is not used there. *)
From Coq Require Import NArith ZArith String Ascii.
From stdpp Require Import gmap.
From Verif Require Import IoSpec IoModel MatModel ReportModel NohashModel.
From Verif Require Export AllMainModel.
From Verif Require Import Base Spec.

(** What the loop prints: name, nnz, threads.  InnerSpGEMM.cpp 109-110 *)
Record sline := mkSLine { s_name : text; s_nnz : nat; s_threads : nat }.

Section Sample.
Context {V : Type} (dflt zero : V) (mul add : V -> V -> V) (ofInt : Z -> V).
Context (pick : gmap nat (ablock V) -> nat) (null0 : bool) (stdsort : list (nat * V) -> list (nat * V)).
Notation heap := (gmap nat (ablock V)).

(** A call, and [C_csr.make_empty()] if [empty]: InnerSpGEMM.cpp 92-93, 98-104 *)
Definition smpStep (b : abench V) (t : nat) (empty : bool) (s : obj * heap) (r : res (obj * heap)) : Prop :=
  exists r1, call dflt pick null0 (a_kind b) (a_prod b) t s r1 /\ r = (s <- r1 ;; if empty then makeEmpty (fst s) (snd s) else Ok s).
(** The iterations [is] of [iters]: InnerSpGEMM.cpp 96-105 *)
Fixpoint smpIters (b : abench V) (iters t : nat) (is : list nat) (s : obj * heap) (r : res (obj * heap)) : Prop :=
  match is with
  | [] => r = Ok s
  | i :: is => exists r1, smpStep b t (i <? iters - 1) s r1 /\ match r1 with Err e => r = Err e | Ok s => smpIters b iters t is s r end
  end.
(** One number of threads: InnerSpGEMM.cpp 86-113; the last [makeEmpty] is the destructor of C_csr. *)
Definition smpOne (b : abench V) (iters t : nat) (h : heap) (r : res (heap * list sline)) : Prop :=
  exists r1, smpStep b t true (defaultCtor, h) r1 /\
  match r1 with
  | Err e => r = Err e
  | Ok s => exists r2, smpIters b iters t (seq 0 iters) s r2 /\
    r = (' (C, h) <- r2 ;; let l := mkSLine (a_label b) (o_nnz C) t in ' (C, h) <- makeEmpty C h ;; ' (C, h) <- makeEmpty C h ;; Ok (h, [l]))
  end.

(** ReadASCII and the matrix by rows: InnerSpGEMM.cpp 57-60, 62-65, 67-70 *)
Definition inputS (itmax : nat) (file : option text) (r : res (csc V * csr V)) : Prop :=
  exists rX, readASCII ofInt dflt stdsort (Z.of_nat itmax) file rX /\ r = (X <- rX ;; T <- csrOfCsc dflt X ;; Ok (X, T)).
(** main: the result, the printed number of operations and the lines.  [files]: the texts of the files argv[1], argv[2], argv[3] ([None]:
    argc < 4); [threads]: argv[4] ([None]: argc is 4).  InnerSpGEMM.cpp 28, 30-119 *)
Definition innerMain (itmax : nat) (files : option (option text * option text * option text)) (threads : option nat) (h : heap)
    (r : res (heap * (Z * option nat * list sline))) : Prop :=
  match files with
  | None => r = Ok (h, ((-1)%Z, None, []))
  | Some (fileA, fileB, fileM) =>
    let tnums := match threads with None => [4; 8; 16; 32; 64] | Some t => [t] end in
    exists rA rB rM, inputS itmax fileA rA /\ inputS itmax fileB rB /\ inputS itmax fileM rM /\
    match (' (_, A) <- rA ;; ' (Bc, B) <- rB ;; ' (_, M) <- rM ;;
           _ <- sortedFlag (rows A) (rowptr A) (colids A) ;; _ <- sortedFlag (rows B) (rowptr B) (colids B) ;;
           _ <- sortedFlag (c_cols Bc) (colptr Bc) (rowids Bc) ;; _ <- sortedFlag (rows M) (rowptr M) (colids M) ;;
           flop <- getFlopCsr A B ;; Ok (A, Bc, M, flop)) with
    | Err e => r = Err e
    | Ok (A, Bc, M, flop) =>
      let b := mkABench (str "DotSpGEMM") (KNohash (rows M) (nnz M)) (fun t nz => allNohash dflt zero mul add itmax A M Bc t nz) in
      exists r1, seqA (smpOne b 1) tnums h r1 /\ r = (' (h, ls) <- r1 ;; Ok (h, (0%Z, Some flop, ls)))
    end
  end.
End Sample.
