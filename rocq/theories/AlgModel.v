(** The row algorithms as the drivers see them (masked-spgemm.h, template parameter RowAlgorithm): static
    flags, constructor, getMemoryRequirement, the two accumulators and the two row functions.

    Simplification.  A row algorithm object holds both accumulators; a driver works first with one and
    then with the other, so each is given on its own.  MaskedHeap holds one heap for both roles; what
    the numeric role inherits from the symbolic one (_maxSize) is only used by the releaseBuffer call
    whose result is dropped (masked-spgemm.h:79,174), so it starts from 0 here. *)
From Coq Require Import NArith ZArith.
From Verif Require Import Base Spec KernelBase MsaModel McaModel HashModel HeapModel MemModel DriverModel.

Section Algs.
Context {V : Type} (mul add : V -> V -> V).

(** rowNvals[row] = count, for a count kept in the index type and decremented for masked columns
    (MSAAlgorithm.h:103-137, MaskedHashAlgorithm.h:133-157): a negative count does not fit rowNvals. *)
Definition zcount {T} (r : T * Z) : res (T * nat) :=
  if (snd r <? 0)%Z then Err OutOfBounds else Ok (fst r, Z.to_nat (snd r)).

(** A row function working on the accumulator inside a placed one.
    The drivers hand the accumulator to the row functions: masked-spgemm.h 72, 148, 172. *)
Definition onPlaced {T} (f : T -> res (T * nat)) (p : placed T) : res (placed T * nat) :=
  '(a, n) <- f (p_acc p) ;; Ok (mkPlaced a (p_buf p) (p_off p), n).

(** msa/MSAAlgorithm.h: MSABase 10-72 and (complemented) 74-138 with flags 13-16,77-80, constructors 25-26,89-90 (both
    accumulators get maxIndex), getMemoryRequirement 28-33,92-97; MSA1A 144-232 ([two] = false), MSA2A
    238-334 ([two] = true).  [sz] is
    sizeof(EntryT) of the numeric 1A accumulator, sizeof(NT) for 2A. *)
Definition msaReq (two : bool) (sz : N) (n : nat) : N * N :=
  if two then both_req (msa2_req false sz n) (msa2_req true sz n) else both_req (msa1_req 1 n) (msa1_req sz n).
(** setBuffer of the symbolic accumulator: MSAAlgorithm.h 35; 1A.h 67-73; 2A.h 69-84 *)
Definition msaSset (two : bool) (sz : N) (n : nat) (b : buf) : res (placed (msa V)) :=
  if two then msa2_set false sz n b else msa1_set false 1 n b.
(** releaseBuffer of the symbolic accumulator: MSAAlgorithm.h 35; 1A.h 75-80; 2A.h 86-97 *)
Definition msaSrel (two : bool) (sz : N) (p : placed (msa V)) : buf :=
  if two then msa2_rel false sz p else msa1_rel 1 p.
(** setBuffer of the numeric accumulator: MSAAlgorithm.h 37; 1A.h 67-73; 2A.h 69-84 *)
Definition msaNset (two : bool) (sz : N) (n : nat) (b : buf) : res (msa V) :=
  p <- (if two then msa2_set true sz n b else msa1_set true sz n b) ;; Ok (p_acc p).

(** MSA1A<false, ...>, MSA2A<false, ...>: msa/MSAAlgorithm.h 10-72, 144-192, 238-290; MSA1A_old, MSA2A_old: MSAAlgorithm_old.h 8-109, 111-229 *)
Definition msaAlg (two : bool) (sz : N) : rowalg V :=
  mkRowalg V false false false false (placed (msa V)) (msa V)
    (fun p => Ok (msaReq two sz (pIdx p)))
    (fun p => msaSset two sz (pIdx p))
    (fun A B M row flops => onPlaced (msaSymbolicRow A B M row))
    (msaSrel two sz)
    (fun p => msaNset two sz (pIdx p))
    (fun A B M row flops => msaNumericRow mul add two A B M row).
(** MSA1A<true, Sorted>, MSA2A<true, Sorted>: msa/MSAAlgorithm.h 74-138, 194-232, 292-334 *)
Definition msaAlgC (two sorted : bool) (sz : N) : rowalg V :=
  mkRowalg V true false false false (placed (msa V)) (msa V)
    (fun p => Ok (msaReq two sz (pIdx p)))
    (fun p => msaSset two sz (pIdx p))
    (fun A B M row flops => onPlaced (fun a => r <- msaSymbolicRowC A B M row a ;; zcount r))
    (msaSrel two sz)
    (fun p => msaNset two sz (pIdx p))
    (fun A B M row flops => msaNumericRowC mul add two sorted A B M row).

(** mca/MCAAlgorithm.h: flags 16-19, constructor 28-29 (maxRowSizeM), getMemoryRequirement 31-36.  [sz] is
    sizeof(EntryT) of the numeric accumulator, 1 for the symbolic one. *)
Definition mcaAlg (sz : N) : rowalg V :=
  mkRowalg V false false true false (placed (mca V)) (mca V)
    (fun p => Ok (both_req (mca_req 1 (pM p)) (mca_req sz (pM p))))
    (fun p => mca_setbuf 1 (pM p))
    (fun A B M row flops => onPlaced (mcaSymbolicRow A B M row))
    (mca_relbuf 1)
    (fun p b => q <- mca_setbuf sz (pM p) b ;; Ok (p_acc q))
    (fun A B M row flops => mcaNumericRow mul add A B M row).

(** hash/MaskedHashAlgorithm.h MaskedHash: flags 13-16, constructor 25-26, getMemoryRequirement 28-33.
    [w] is the width of IT, [sK] and [sN] the entry sizes of the two tables. *)
Definition hashAlg (w sK sN : N) : rowalg V :=
  mkRowalg V false false true false (placed (hash V)) (hash V)
    (fun p => cap <- adjustSize w (pM p) ;; Ok (both_req (hash_req sK cap) (hash_req sN cap)))
    (fun p b => cap <- adjustSize w (pM p) ;; hash_set sK cap 0 0 b)
    (fun A B M row flops => onPlaced (hashSymbolicRow w A B M row))
    (hash_rel sK)
    (fun p b => cap <- adjustSize w (pM p) ;; q <- hash_set sN cap 0 0 b ;; Ok (p_acc q))
    (fun A B M row flops => hashNumericRow w mul add A B M row).

(** hash/MaskedHashAlgorithm.h MaskedHashComplemented: flags 103-106, constructor 116-120 (capacity
    maxRowSizeM + maxRowFlops, then resize(maxRowFlops) on both tables), getMemoryRequirement 122-127. *)
Definition hashCtorC (w : N) (p : params) : res (nat * nat) :=
  cap <- adjustSize w (pM p + pF p) ;;
  s <- adjustSize w (pF p) ;;
  _ <- assert_ (s <=? cap) ;;
  Ok (cap, s).
(** MaskedHash<true, Sorted>: hash/MaskedHashAlgorithm.h 100-195 *)
Definition hashAlgC (w sK sN : N) (sorted : bool) : rowalg V :=
  mkRowalg V true false true true (placed (hash V)) (hash V)
    (fun p => '(cap, _) <- hashCtorC w p ;; Ok (both_req (hash_req sK cap) (hash_req sN cap)))
    (fun p b => '(cap, s) <- hashCtorC w p ;; hash_set sK cap s s b)
    (fun A B M row flops => onPlaced (fun a => r <- hashSymbolicRowC w A B M row flops a ;; zcount r))
    (hash_rel sK)
    (fun p b => '(cap, s) <- hashCtorC w p ;; q <- hash_set sN cap s s b ;; Ok (p_acc q))
    (fun A B M row flops => hashNumericRowC w mul add sorted A B M row flops).

(** heap/MaskedHeapAlgorithmInspect.h MaskedHeap: flags 11-14, constructor 20 (maxRowSizeA),
    getMemoryRequirement 22.  [insp] is the template argument Inspect, [itmax] is
    numeric_limits<IT>::max(), [sz] the size of a heap entry.  MaskedHeap_v0/v1/v2 of
    heap/MaskedHeapAlgorithm.h (10-27 and the like) are the cases insp = 0, 1, max. *)
Definition heapAlg (itmax : nat) (insp sz : N) : rowalg V :=
  mkRowalg V false true false false (placed heap) heap
    (fun p => Ok (heap_req sz (pA p)))
    (fun p => heap_set sz (pA p) 0)
    (fun A B M row flops => onPlaced (heapSymbolicRow itmax insp A B M row))
    (heap_rel sz)
    (fun p b => q <- heap_set sz (pA p) 0 b ;; Ok (p_acc q))
    (fun A B M row flops => heapNumericRow mul add itmax insp A B M row).
(** heap/MaskedHeapAlgorithmInspect.h MaskedHeapComplemented: flags 278,284-286, constructor 288,
    getMemoryRequirement 290 *)
Definition heapAlgC (itmax : nat) (sz : N) : rowalg V :=
  mkRowalg V true true false false (placed heap) heap
    (fun p => Ok (heap_req sz (pA p)))
    (fun p => heap_set sz (pA p) 0)
    (fun A B M row flops => onPlaced (heapSymbolicRowC itmax A B M row))
    (heap_rel sz)
    (fun p b => q <- heap_set sz (pA p) 0 b ;; Ok (p_acc q))
    (fun A B M row flops => heapNumericRowC mul add itmax A B M row).
End Algs.
