(** main of sample/MaskedSPASpGEMM.cpp, 26-164.

    Simplifications.  As in SampleModel.v, HashHwModel.v, IsectModel.v and SpaModel.v.  Of what is printed, the number of operations (77),
    the ten values (91-92), nnz and threads of the lines 110-111 and 152-153 and the nnz of line 117 are kept, not the flags of Sorted, the
    times nor the compression ratios.  sortIds works in place; here the sorted arrays are kept beside the memory, as C_csr is only emptied
    after it (118).  The arrays of BIN and the array row_nz of Intersect are released where they are made and left out, as is the end of
    main (158-160). *)
From Coq Require Import NArith ZArith String Ascii.
From stdpp Require Import gmap.
From Verif Require Import IoSpec IoModel MatModel ReportModel HashHwModel IsectModel.
From Verif Require Export SampleModel.
From Verif Require Import Base Spec.

(** What the first loop prints: the ten values, nnz, threads, nnz of Tr_csr.  MaskedSPASpGEMM.cpp 91-93, 110-111, 117 *)
Record hline (V : Type) := mkHLine { hl_first : list V; hl_nnz : nat; hl_threads : nat; hl_masked : nat }.
Arguments mkHLine {V} _ _ _ _.
Arguments hl_first {V} _.
Arguments hl_nnz {V} _.
Arguments hl_threads {V} _.
Arguments hl_masked {V} _.

Section SpaMain.
Context {V : Type} (dflt : V) (mul add : V -> V -> V) (ofInt : Z -> V).
Context (pick : gmap nat (ablock V) -> nat) (null0 : bool) (stdsort : list (nat * V) -> list (nat * V)).
Notation heap := (gmap nat (ablock V)).

(** [HashSpGEMM<false>] with [t] threads: MaskedSPASpGEMM.cpp 32, 90, 99; hash_mult_hw.h 183-207.  [itmax]: the largest int; the prefix
    sums are run by any number of threads. *)
Definition smpHash (itmax : nat) (A B : csr V) (t : nat) : csr V -> Prop :=
  endsAny (fun _ => True) (fun nts => hashSpGEMM_ends dflt mul add 32 (itmax + 1) stdsort false (2 * itmax + 1) nts t A B).
(** [Intersect(M_csr, C_csr, plus)]: MaskedSPASpGEMM.cpp 115; CSR.h 690-742 *)
Definition smpIntersect (itmax : nat) (M C : csr V) (r : option (csr V)) : Prop :=
  (forall nts, exists r', intersect_ends dflt add (2 * itmax + 1) nts M C r') /\ exists nts, intersect_ends dflt add (2 * itmax + 1) nts M C r.

(** [C_csr.values[i]] for i from 0 to 9: MaskedSPASpGEMM.cpp 91-92 *)
Definition firstTen (C : obj) (h : heap) : res (list V) :=
  for_ 0 10 (fun i l => ' (_, va) <- blkV (o_va C) h ;; v <- get va i ;; Ok (l ++ [v])) [].
(** The matrix in the object, as sortIds reads it: MaskedSPASpGEMM.cpp 113; CSR.h 664-685 *)
Definition matrixOf (C : obj) (h : heap) : res (csr V) :=
  ' (_, rp) <- blkI (o_rp C) h ;;
  ci <- readI (o_ci C) (o_nnz C) h ;;
  va <- readV (o_va C) (o_nnz C) h ;;
  Ok (mkCsr (o_rows C) (o_cols C) (o_nnz C) rp ci va).

(** One number of threads of the first loop: MaskedSPASpGEMM.cpp 84-118, and at 119 the destructors of Tr_csr and C_csr.  [iters]: ITERS *)
Definition hashOne (itmax iters : nat) (A B M : csr V) (t : nat) (h : heap) (r : res (heap * list (hline V))) : Prop :=
  let b := mkABench (str "HashSpGEMM") KOver (fun t _ => smpHash itmax A B t) in
  exists r1, call dflt pick null0 (a_kind b) (a_prod b) t (defaultCtor, h) r1 /\
  match (s <- r1 ;; first <- firstTen (fst s) (snd s) ;; s <- makeEmpty (fst s) (snd s) ;; Ok (first, s)) with
  | Err e => r = Err e
  | Ok (first, s) => exists r2, smpIters dflt pick null0 b iters t (seq 0 iters) s r2 /\
    match (s <- r2 ;; X <- matrixOf (fst s) (snd s) ;; Ok (s, X)) with
    | Err e => r = Err e
    | Ok ((C, h), X) => exists X' rT, sortIds_ends stdsort X X' /\ smpIntersect itmax M X' rT /\
      let '(T, h) := match rT with None => (defaultCtor, h) | Some R => setArrays pick null0 R true h end in
      let l := mkHLine first (o_nnz C) t (o_nnz T) in
      r = (' (C, h) <- makeEmpty C h ;; ' (T, h) <- makeEmpty T h ;; ' (C, h) <- makeEmpty C h ;; Ok (h, [l]))
    end
  end.

(** main: the result, the printed number of operations and the lines of both loops.  [files]: the texts of the files argv[1], argv[2],
    argv[3] ([None]: argc < 4); [threads]: argv[4] ([None]: argc is 4).  MaskedSPASpGEMM.cpp 28, 30-163 *)
Definition spaMain (itmax : nat) (files : option (option text * option text * option text)) (threads : option nat) (h : heap)
    (r : res (heap * (Z * option nat * list (hline V) * list sline))) : Prop :=
  match files with
  | None => r = Ok (h, ((-1)%Z, None, [], []))
  | Some (fileA, fileB, fileM) =>
    let tnums := match threads with None => [4; 8; 16; 32; 64] | Some t => [t] end in
    exists rA rB rM, inputS dflt ofInt stdsort itmax fileA rA /\ inputS dflt ofInt stdsort itmax fileB rB /\ inputS dflt ofInt stdsort itmax fileM rM /\
    match (' (_, A) <- rA ;; ' (_, B) <- rB ;; ' (_, M) <- rM ;;
           _ <- sortedFlag (rows A) (rowptr A) (colids A) ;; _ <- sortedFlag (rows B) (rowptr B) (colids B) ;; _ <- sortedFlag (rows M) (rowptr M) (colids M) ;;
           flop <- getFlopCsr A B ;; Ok (A, B, M, flop)) with
    | Err e => r = Err e
    | Ok (A, B, M, flop) =>
      let b := mkABench (str "MaskedSPASpGEMM") KOver (fun t _ => allSpa dflt mul add itmax A B M t) in
      exists r1, seqA (hashOne itmax 1 A B M) tnums h r1 /\
      match r1 with
      | Err e => r = Err e
      | Ok (h, hs) => exists r2, seqA (smpOne dflt pick null0 b 1) tnums h r2 /\ r = (' (h, ls) <- r2 ;; Ok (h, (0%Z, Some flop, hs, ls)))
      end
    end
  end.
End SpaMain.
