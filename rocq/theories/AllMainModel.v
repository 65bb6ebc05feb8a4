(** run and main of benchmarks/MaskedAllSpGEMM.cpp, 77-219.

    Simplifications.  As in RunModel.v and in the models of the products.  atoi, std::stoul and std::getenv are left out: the numbers
    they give are the inputs ([None]: no such argument or variable); the number of threads is not negative.  Value_t (double) is a type V
    with the operations the program uses; an index has 4 bytes and a value 8, given by [encI] and [encV].  key * 107 is computed in 32 bits
    without a fault.  Of what is printed, the numbers of the lines 89-90, 115-116 and 120-123 are kept but for the times.  A_csr_t, B_csr_t and
    M_csr_t, which no product gets, are left out, and so is the end of main (208-216); the arrays of the input matrices are kept apart from
    the memory of the output object.  get_flop and the products are relations that hold if the call always ends well; where it does not
    the program has no result here. *)
From Coq Require Import NArith ZArith String Ascii.
From stdpp Require Import gmap.
From Verif Require Import ParModel IoSpec IoModel MatModel DriverModel SpaModel MaskHashModel NohashModel HeapImplModel.
From Verif Require Export RunModel.
From Verif Require Import Base Spec.

(** A call that ends whatever [p] is, of those with [P p], and may compute [R]: MaskedAllSpGEMM.cpp 98, 105 *)
Definition endsAny {X V} (P : X -> Prop) (ends : X -> csr V -> Prop) (R : csr V) : Prop :=
  (forall p, P p -> exists R', ends p R') /\ exists p, P p /\ ends p R.

(** The numbers of the lines that a run prints for one number of threads: name, threads, the file name of the LOG line, flop, nnz and the
    two checksums.  MaskedAllSpGEMM.cpp 89-90, 115-123 *)
Record aline := mkALine { a_name : text; a_threads : nat; a_file : text; a_flop : nat; a_nnz : nat; a_check : N * N }.
(** A call of run: name, kind of the product (RunModel), product.  MaskedAllSpGEMM.cpp 84-88, 195-204 *)
Record abench (V : Type) := mkABench { a_label : text; a_kind : kind; a_prod : nat -> nat -> csr V -> Prop }.
Arguments mkABench {V} _ _ _.
Arguments a_label {V} _.
Arguments a_kind {V} _.
Arguments a_prod {V} _ _ _ _.

Section All.
Context {V : Type} (dflt zero : V) (mul add : V -> V -> V) (ofInt : Z -> V) (encI : nat -> list N) (encV : V -> list N).
Context (pick : gmap nat (ablock V) -> nat) (null0 : bool) (stdsort : list (nat * V) -> list (nat * V)).
Notation heap := (gmap nat (ablock V)).

(** checksum(C) without the conversion to text: MaskedAllSpGEMM.cpp 58-69 *)
Definition checksumA (nz : nat) (ids : list nat) (vals : list V) : res (N * N) :=
  v <- calculateChecksum (mjoin (encV <$> vals)) (nz * 8) ;;
  i <- calculateChecksum (mjoin (encI <$> ids)) (nz * 4) ;;
  Ok (v, i).
(** The lines of one number of threads; fileName may be NULL ([None]), which may not be printed: MaskedAllSpGEMM.cpp 77, 115-123 *)
Definition reportA (name : text) (fileName : option text) (flop t : nat) (C : obj) (h : heap) : res aline :=
  va <- readV (o_va C) (o_nnz C) h ;;
  ci <- readI (o_ci C) (o_nnz C) h ;;
  c <- checksumA (o_nnz C) ci va ;;
  match fileName with None => Err OutOfBounds | Some f => Ok (mkALine name t f flop (o_nnz C) c) end.

(** One number of threads: MaskedAllSpGEMM.cpp 93-126; the last [makeEmpty] is the destructor of C. *)
Definition runOneA (b : abench V) (fileName : option text) (flop niters t : nat) (h : heap) (r : res (heap * aline)) : Prop :=
  exists r1, (if niters =? 1 then r1 = Ok (defaultCtor, h) else call dflt pick null0 (a_kind b) (a_prod b) t (defaultCtor, h) r1) /\
  match r1 with
  | Err e => r = Err e
  | Ok s => exists r2, intLoop (measured dflt pick null0 (a_kind b) (a_prod b) t) niters s r2 /\
    match r2 with
    | Err e => r = Err e
    | Ok (C, h) => r = (l <- reportA (a_label b) fileName flop t C h ;; ' (C, h) <- makeEmpty C h ;; ' (C, h) <- makeEmpty C h ;; Ok (h, l))
    end
  end.
(** A loop that goes on with the memory and collects lines: MaskedAllSpGEMM.cpp 92, 193, 195-204 *)
Fixpoint seqA {X L} (body : X -> heap -> res (heap * list L) -> Prop) (l : list X) (h : heap) (r : res (heap * list L)) : Prop :=
  match l with
  | [] => r = Ok (h, [])
  | x :: l => exists r1, body x h r1 /\
    match r1 with
    | Err e => r = Err e
    | Ok (h, ls) => exists r2, seqA body l h r2 /\ r = (' (h, ls') <- r2 ;; Ok (h, ls ++ ls'))
    end
  end.
(** [run]: MaskedAllSpGEMM.cpp 84-128 *)
Definition runA (fileName : option text) (flop niters : nat) (tnums : list nat) (b : abench V) : heap -> res (heap * list aline) -> Prop :=
  seqA (fun t h r => exists r1, runOneA b fileName flop niters t h r1 /\ r = (' (h, l) <- r1 ;; Ok (h, [l]))) tnums.

(** The products on the matrices A, B ([Bc]: B by columns) and M with [t] threads, for an output object with nnz [nz] before:
    MaskedAllSpGEMM.cpp 195-204.  [itmax]: the largest int; the prefix sum of utility.h is run by any number of threads [nts]. *)
Section Products.
Context (itmax : nat) (A B M : csr V) (Bc : csc V) (t nz : nat).
(** spa_mult.h 11-91 *)
Definition allSpa : csr V -> Prop := endsAny (fun _ => True) (fun nts => spaSpGEMM_ends dflt mul add (itmax + 1) (2 * itmax + 1) nts t A B M).
(** inner_mult.h 48-184, IMB_PWMIN = 8 (hash_mult_hw.h 18; inner_mult.h 73) *)
Definition allNohash : csr V -> Prop := endsAny (fun _ => True) (fun nts => innerSpGEMM_nohash_ends dflt zero mul add (itmax + 1) (2 * itmax + 1) nts t 8 A Bc M nz).
(** mask_hash_mult.h 33-157 *)
Definition allHash : csr V -> Prop := endsAny (fun _ => True) (fun nts => mxmHashMask_ends dflt mul add 32 (itmax + 1) (2 * itmax + 1) nts t A B M).
(** mask_hash_mult.h 166-241; the loops are distributed over the threads in any way (183, 212) *)
Definition allWobin : csr V -> Prop :=
  endsAny (fun p : nat * list (list nat) * list (list nat) => schedule (rows A) (snd (fst p)) /\ schedule (rows A) (snd p))
    (fun p => mxmHashMaskWobin_ends dflt mul add 32 (itmax + 1) (2 * itmax + 1) (fst (fst p)) (snd (fst p)) (snd p) A B M).
(** heap_mult_generic.h 716-812, wherever the objects are; the number of threads of the prefix sum is at least 1 *)
Definition allHeap (alg : halg V) (R : csr V) : Prop :=
  forall nts iA iB iM iC C0 s, 1 <= nts -> s !! iA = Some (DriverModel.OMat A) -> s !! iB = Some (DriverModel.OMat B) -> s !! iM = Some (DriverModel.OMat M) ->
    s !! iC = Some (DriverModel.OMat C0) -> iC <> iA -> iC <> iB -> iC <> iM ->
    HeapSpGEMMImpl_always alg (2 * itmax + 1) nts iA iB iM iC t s (<[iC := DriverModel.OMat R]> s).
End Products.
(** The ten calls of run: MaskedAllSpGEMM.cpp 195-204.  MaskedHeap_v0, _v1, _v2 differ in the inspection threshold
    (heap_mult_generic.h 226, 288, 364). *)
Definition allBenches (itmax : nat) (A B M : csr V) (Bc : csc V) : list (abench V) :=
  [ mkABench (str "MaskedSPASpGEMM CSR") KOver (fun t _ => allSpa itmax A B M t);
    mkABench (str "innerSpGEMM_nohash<false-false> CSR/CSC") (KNohash (rows M) (nnz M)) (fun t nz => allNohash itmax A M Bc t nz);
    mkABench (str "mxm_hash_mask CSR") KOver (fun t _ => allHash itmax A B M t);
    mkABench (str "mxm_hash_mask_wobin CSR") KOver (fun _ _ => allWobin itmax A B M);
    mkABench (str "HeapSpGEMM<rowAlg::MaskedBasicHeap_v1> CSR") KHeap (fun t _ => allHeap itmax A B M t (maskedHeapAlg mul add 0));
    mkABench (str "HeapSpGEMM<rowAlg::MaskedBasicHeap_v2> CSR") KHeap (fun t _ => allHeap itmax A B M t (maskedHeapAlg mul add 1));
    mkABench (str "HeapSpGEMM<rowAlg::MaskedBasicHeap_v3> CSR") KHeap (fun t _ => allHeap itmax A B M t (maskedHeapAlg mul add (2 ^ 64 - 1)));
    mkABench (str "HeapSpGEMM<rowAlg::MCA_v1> CSR") KHeap (fun t _ => allHeap itmax A B M t (mcaAlgG mul add MV1));
    mkABench (str "HeapSpGEMM<rowAlg::MCA_v2> CSR") KHeap (fun t _ => allHeap itmax A B M t (mcaAlgG mul add MV2));
    mkABench (str "HeapSpGEMM<rowAlg::MCA_v3> CSR") KHeap (fun t _ => allHeap itmax A B M t (mcaAlgG mul add MV3)) ].

(** An input: ReadASCII, the matrix by rows, and the two calls of Sorted: MaskedAllSpGEMM.cpp 155-158, 173, 177 *)
Definition inputA (itmax : nat) (file : option text) (r : res (csc V * csr V)) : Prop :=
  exists rX, readASCII ofInt dflt stdsort (Z.of_nat itmax) file rX /\
    r = (X <- rX ;; T <- csrOfCsc dflt X ;; _ <- sortedFlag (rows T) (rowptr T) (colids T) ;; _ <- sortedFlag (c_cols X) (colptr X) (rowids X) ;; Ok (X, T)).
(** main: MaskedAllSpGEMM.cpp 130-206.  [path]: argv[1]; [threads]: argv[4] ([None]: argc is 4); [fileA], [fileB], [fileM]: the texts of the
    three files; [inner], [outer]: INNER_ITERS, OUTER_ITERS.  Of the ten calls of run in a pass only the first [k] are made; the program
    is [k = 10]. *)
Definition allMain (k itmax : nat) (path : text) (fileA fileB fileM : option text) (threads inner outer : option nat) (h : heap) (r : res (heap * list aline)) : Prop :=
  match (match threads with None => Ok None | Some _ => f <- getFileNameC path ;; Ok (Some f) end) with
  | Err e => r = Err e
  | Ok fileName =>
    let tnums := match threads with None => [4; 8; 16; 32; 64] | Some t => [t] end in
    exists rA rB rM, inputA itmax fileA rA /\ inputA itmax fileB rB /\ inputA itmax fileM rM /\
    match (' (XA, A) <- rA ;; ' (XB, B) <- rB ;; ' (XM, M) <- rM ;; Ok (XA, A, XB, B, M)) with
    | Err e => r = Err e
    | Ok (XA, A, XB, B, M) => exists flop, getFlopCsc_always XA XB flop /\
      seqA (fun _ : nat => seqA (runA fileName flop (default 1 inner) tnums) (take k (allBenches itmax A B M XB))) (seq 0 (default 1 outer)) h r
    end
  end.
End All.
