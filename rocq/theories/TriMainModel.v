(** main of benchmarks/TriCntAll.cpp, 253-380.

    Simplifications.  As in MainModel.v and in the models of the products.  preprocessInput, get_flop and the products
    are relations that hold if the call always ends well; where it does not the program has no result here. *)
From Coq Require Import NArith ZArith String Ascii.
From stdpp Require Import gmap.
From Verif Require Import ParModel IoSpec IoModel MatModel DriverModel InnerDriverModel AlgModel PolyModel SpaModel MaskHashModel NohashModel TriAllModel.
From Verif Require Export MainModel.
From Verif Require Import Base Spec.

(** A call that ends whatever [p] is, of those with [P p], and may compute [R].  TriCntAll.cpp 253-260. *)
Definition anyOf {X V} (P : X -> Prop) (ends : X -> csr V -> Prop) (R : csr V) : Prop :=
  (forall p, P p -> exists R', ends p R') /\ exists p, P p /\ ends p R.

(** The calls f(A_csr, B, C, A_csr, multiplies, plus, t): benchmarks-util.h 118, 125; TriCntAll.cpp 253-260.  B is A_csr,
    or A_csc ([Ac]) for the inner products.  [itmax]: the largest long; the prefix sum of utility.h is run by any number
    of threads [nts].  [nz]: the nnz of the output object before, which only innerSpGEMM_nohash looks at. *)
Definition productI1p (A : csr Z) (Ac : csc Z) (t nz : nat) (R : csr Z) : Prop :=
  forall iA iB iC s, iC <> iA -> iC <> iB -> s !! iA = Some (DriverModel.OMat A) -> s !! iB = Some (DriverModel.OCsc Ac) ->
    inner1p_always mul64 add64 iA iB iA iC t s (<[iC := DriverModel.OMat R]> s).
(** The two-phase inner product: TriCntAll.cpp 253-260; masked-spgemm-inner.h 73-141 *)
Definition productI2p (A : csr Z) (Ac : csc Z) (t nz : nat) (R : csr Z) : Prop :=
  forall iA iB iC s, iC <> iA -> iC <> iB -> s !! iA = Some (DriverModel.OMat A) -> s !! iB = Some (DriverModel.OCsc Ac) ->
    inner2p_always mul64 add64 iA iB iA iC t s (<[iC := DriverModel.OMat R]> s).
(** MaskedSpGEMM1p of masked-spgemm-poly.h; values of 8 bytes, entries of the mask-compressed accumulator of 16 *)
Definition productPoly (A : csr Z) (t nz : nat) (R : csr Z) : Prop :=
  forall iA iC sc s, iA <> iC -> s !! iA = Some (DriverModel.OMat A) -> poly_always mul64 add64 8 16 iA iA iA iC t sc s (<[iC := DriverModel.OMat R]> s).
(** innerSpGEMM_nohash<false, false>: IMB_PWMIN = 8 (hash_mult_hw.h 18; inner_mult.h 73) *)
Definition productNohash (itmax : nat) (A : csr Z) (Ac : csc Z) (t nz : nat) : csr Z -> Prop :=
  anyOf (fun _ => True) (fun nts => innerSpGEMM_nohash_ends 0%Z 0%Z mul64 add64 (itmax + 1) (2 * itmax + 1) nts t 8 A Ac A nz).
(** MaskedSPASpGEMM: spa_mult.h 11-91 *)
Definition productSpa (itmax : nat) (A : csr Z) (t nz : nat) : csr Z -> Prop :=
  anyOf (fun _ => True) (fun nts => spaSpGEMM_ends 0%Z mul64 add64 (itmax + 1) (2 * itmax + 1) nts t A A A).
(** mxm_hash_mask: mask_hash_mult.h 33-157 *)
Definition productHashMask (itmax : nat) (A : csr Z) (t nz : nat) : csr Z -> Prop :=
  anyOf (fun _ => True) (fun nts => mxmHashMask_ends 0%Z mul64 add64 64 (itmax + 1) (2 * itmax + 1) nts t A A A).
(** The loops of mxm_hash_mask_wobin are distributed over the threads in any way: mask_hash_mult.h 183, 212 *)
Definition productWobin (itmax : nat) (A : csr Z) (t nz : nat) : csr Z -> Prop :=
  anyOf (fun p : nat * list (list nat) * list (list nat) => schedule (rows A) (snd (fst p)) /\ schedule (rows A) (snd p))
    (fun p => mxmHashMaskWobin_ends 0%Z mul64 add64 64 (itmax + 1) (2 * itmax + 1) (fst (fst p)) (snd (fst p)) (snd p) A A A).
(** HashIntersect; [stdsortK]: std::sort by the first component (hash_mult_hw.h 91-95, 163) *)
Definition productIsect (stdsortK : list (nat * Z) -> list (nat * Z)) (itmax : nat) (A : csr Z) (t nz : nat) : csr Z -> Prop :=
  anyOf (fun _ => True) (fun nts => hashIntersect_ends 0%Z stdsortK mul64 add64 64 (itmax + 1) (2 * itmax + 1) nts t A A A).

(** The products of TriCntAll.cpp 297-375 with their modes.  Entries of the accumulators: MSA1A 16 bytes, MSA2A 8, MCA 16,
    MaskedHash 8 and 24, Heap 24; MaskedHeapDot is the largest size_t (MaskedHeapAlgorithmInspect.h 421).  The inner products
    hand over their result with initC in both forms. *)
Definition triBenches (stdsortK : list (nat * Z) -> list (nat * Z)) (itmax : nat) (A : csr Z) (Ac : csc Z) : list bench :=
  let inn := [txt "inner"; txt "dot"; txt "all"] in
  let msa := [txt "msa"; txt "all"] in
  let hsh := [txt "hash"; txt "all"] in
  let hep := [txt "heap"; txt "all"] in
  let isc := [txt "intersect"; txt "all"] in
  let a1 := [txt "all1p"] in
  let a2 := [txt "all2p"] in
  [ mkBench inn (str "(innerSpGEMM_nohash<false, false>)") (KNohash (rows A) (nnz A)) (productNohash itmax A Ac);
    mkBench inn (str "MaskedSpGEMM1pInnerProduct") K1p (productI1p A Ac);
    mkBench inn (str "MaskedSpGEMM2pInnerProduct") K1p (productI2p A Ac);
    mkBench inn (str "MaskedSpGEMM1p<MaskedInner>") K1p (productI1p A Ac);
    mkBench inn (str "MaskedSpGEMM2p<MaskedInner>") K1p (productI2p A Ac);
    mkBench msa (str "MaskedSPASpGEMM") KOver (productSpa itmax A);
    mkBench msa (str "MSA2A_old-1P") K1p (product1p (msaAlg mul64 add64 true 8) A);
    mkBench msa (str "MSA2A_old-2P") K2p (product2p (msaAlg mul64 add64 true 8) A);
    mkBench msa (str "(MaskedSpGEMM1p<MSA2A<false, false>::Impl>)") K1p (product1p (msaAlg mul64 add64 true 8) A);
    mkBench msa (str "(MaskedSpGEMM2p<MSA2A<false, false>::Impl>)") K2p (product2p (msaAlg mul64 add64 true 8) A);
    mkBench msa (str "MSA1A_old-1P") K1p (product1p (msaAlg mul64 add64 false 16) A);
    mkBench msa (str "MSA1A_old-2P") K2p (product2p (msaAlg mul64 add64 false 16) A);
    mkBench msa (str "(MaskedSpGEMM1p<MSA1A<false, false>::Impl>)") K1p (product1p (msaAlg mul64 add64 false 16) A);
    mkBench msa (str "(MaskedSpGEMM2p<MSA1A<false, false>::Impl>)") K2p (product2p (msaAlg mul64 add64 false 16) A);
    mkBench hsh (str "mxm_hash_mask_wobin") KOver (productWobin itmax A);
    mkBench hsh (str "mxm_hash_mask") KOver (productHashMask itmax A);
    mkBench hsh (str "(MaskedSpGEMM1p<MaskedHash<false, false>::Impl>)") K1p (product1p (hashAlg mul64 add64 64 8 24) A);
    mkBench hsh (str "(MaskedSpGEMM2p<MaskedHash<false, false>::Impl>)") K2p (product2p (hashAlg mul64 add64 64 8 24) A);
    mkBench hep (str "MaskedHeap_v0-1P") K1p (product1p (heapAlg mul64 add64 itmax 0 24) A);
    mkBench hep (str "MaskedHeap_v0-2P") K2p (product2p (heapAlg mul64 add64 itmax 0 24) A);
    mkBench hep (str "(MaskedSpGEMM1p<MaskedHeap<false, true, 0>::Impl>)") K1p (product1p (heapAlg mul64 add64 itmax 0 24) A);
    mkBench hep (str "(MaskedSpGEMM2p<MaskedHeap<false, true, 0>::Impl>)") K2p (product2p (heapAlg mul64 add64 itmax 0 24) A);
    mkBench hep (str "MaskedHeap_v1-1P") K1p (product1p (heapAlg mul64 add64 itmax 1 24) A);
    mkBench hep (str "MaskedHeap_v1-2P") K2p (product2p (heapAlg mul64 add64 itmax 1 24) A);
    mkBench hep (str "(MaskedSpGEMM1p<MaskedHeap<false, true, 1>::Impl>)") K1p (product1p (heapAlg mul64 add64 itmax 1 24) A);
    mkBench hep (str "(MaskedSpGEMM2p<MaskedHeap<false, true, 1>::Impl>)") K2p (product2p (heapAlg mul64 add64 itmax 1 24) A);
    mkBench hep (str "(MaskedSpGEMM1p<MaskedHeap<false, true, 8>::Impl>)") K1p (product1p (heapAlg mul64 add64 itmax 8 24) A);
    mkBench hep (str "(MaskedSpGEMM2p<MaskedHeap<false, true, 8>::Impl>)") K2p (product2p (heapAlg mul64 add64 itmax 8 24) A);
    mkBench hep (str "(MaskedSpGEMM1p<MaskedHeap<false, true, 64>::Impl>)") K1p (product1p (heapAlg mul64 add64 itmax 64 24) A);
    mkBench hep (str "(MaskedSpGEMM2p<MaskedHeap<false, true, 64>::Impl>)") K2p (product2p (heapAlg mul64 add64 itmax 64 24) A);
    mkBench hep (str "(MaskedSpGEMM1p<MaskedHeap<false, true, 512>::Impl>)") K1p (product1p (heapAlg mul64 add64 itmax 512 24) A);
    mkBench hep (str "(MaskedSpGEMM2p<MaskedHeap<false, true, 512>::Impl>)") K2p (product2p (heapAlg mul64 add64 itmax 512 24) A);
    mkBench hep (str "MaskedHeap_v2-1P") K1p (product1p (heapAlg mul64 add64 itmax (2 ^ 64 - 1) 24) A);
    mkBench hep (str "MaskedHeap_v2-2P") K2p (product2p (heapAlg mul64 add64 itmax (2 ^ 64 - 1) 24) A);
    mkBench hep (str "(MaskedSpGEMM1p<MaskedHeap<false, true, MaskedHeapDot>::Impl>)") K1p (product1p (heapAlg mul64 add64 itmax (2 ^ 64 - 1) 24) A);
    mkBench hep (str "(MaskedSpGEMM2p<MaskedHeap<false, true, MaskedHeapDot>::Impl>)") K2p (product2p (heapAlg mul64 add64 itmax (2 ^ 64 - 1) 24) A);
    mkBench isc (str "HashIntersect") KAssign (productIsect stdsortK itmax A);
    mkBench a1 (str "MaskedSpGEMM1p<MaskedInner>") K1p (productI1p A Ac);
    mkBench a1 (str "(MaskedSpGEMM1p<MaskedHeap<false, true, 1>::Impl>)") K1p (product1p (heapAlg mul64 add64 itmax 1 24) A);
    mkBench a1 (str "(MaskedSpGEMM1p<MaskedHeap<false, true, MaskedHeapDot>::Impl>)") K1p (product1p (heapAlg mul64 add64 itmax (2 ^ 64 - 1) 24) A);
    mkBench a1 (str "(MaskedSpGEMM1p<MaskedHash<false, false>::Impl>)") K1p (product1p (hashAlg mul64 add64 64 8 24) A);
    mkBench a1 (str "(MaskedSpGEMM1p<MSA1A<false, false>::Impl>)") K1p (product1p (msaAlg mul64 add64 false 16) A);
    mkBench a1 (str "(MaskedSpGEMM1p<MSA2A<false, false>::Impl>)") K1p (product1p (msaAlg mul64 add64 true 8) A);
    mkBench a1 (str "(MaskedSpGEMM1p<MCA<false, false>::Impl>)") K1p (product1p (mcaAlg mul64 add64 16) A);
    mkBench a1 (str "MaskedSpGEMM1p") K1p (productPoly A);
    mkBench a2 (str "MaskedSpGEMM2p<MaskedInner>") K1p (productI2p A Ac);
    mkBench a2 (str "(MaskedSpGEMM2p<MaskedHeap<false, true, 1>::Impl>)") K2p (product2p (heapAlg mul64 add64 itmax 1 24) A);
    mkBench a2 (str "(MaskedSpGEMM2p<MaskedHeap<false, true, MaskedHeapDot>::Impl>)") K2p (product2p (heapAlg mul64 add64 itmax (2 ^ 64 - 1) 24) A);
    mkBench a2 (str "(MaskedSpGEMM2p<MaskedHash<false, false>::Impl>)") K2p (product2p (hashAlg mul64 add64 64 8 24) A);
    mkBench a2 (str "(MaskedSpGEMM2p<MSA1A<false, false>::Impl>)") K2p (product2p (msaAlg mul64 add64 false 16) A);
    mkBench a2 (str "(MaskedSpGEMM2p<MSA2A<false, false>::Impl>)") K2p (product2p (msaAlg mul64 add64 true 8) A);
    mkBench a2 (str "(MaskedSpGEMM2p<MCA<false, false>::Impl>)") K2p (product2p (mcaAlg mul64 add64 16) A) ].

Section Main.
Context (pick : gmap nat (ablock Z) -> nat) (null0 : bool).
Notation heap := (gmap nat (ablock Z)).
Context (sortP : (nat * nat -> nat * nat -> bool) -> list (nat * nat) -> list (nat * nat)).
Context (sortT : (triple Z -> triple Z -> bool) -> list (triple Z) -> list (triple Z)).
Context (stdsort stdsortK : list (nat * Z) -> list (nat * Z)).
(** main: TriCntAll.cpp 275-281, 294-376.  [file]: the text of the file, [tnum]: the number of threads. *)
Definition triMain (itmax : nat) (file : option text) (s : settings) (tnum : nat) (h : heap) (r : res (heap * list (text * line Z))) : Prop :=
  exists rX, readASCII ofInt64 0%Z stdsort (Z.of_nat itmax) file rX /\
  match rX with
  | Err e => r = Err e
  | Ok X => exists L, preprocessInput_ends 0%Z 1%Z sortP sortT stdsort X L /\
    match csrOfCsc 0%Z L with
    | Err e => r = Err e
    | Ok A => exists flop, getFlopCsc_always L L flop /\ passes pick null0 s tnum (triBenches stdsortK itmax A L) (outerIters s) h r
    end
  end.
End Main.
