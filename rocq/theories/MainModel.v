(** The mains of the benchmarks: settings from the environment, and the loop over the products.
    benchmarks/ComplementMaskedSpGEMM.cpp 36-101.

    Simplifications.  atoi, std::stoul and std::getenv are left out: the numbers and the mode they give are the inputs
    ([None]: the variable is not set).  The number of threads is not negative.  What is printed besides the LOG lines,
    the file name in them and the times are left out.  The arrays of the input matrices are kept apart from the memory
    of the output object. *)
From Coq Require Import NArith ZArith String Ascii.
From stdpp Require Import gmap.
From Verif Require Import ParModel IoSpec IoModel MatModel DriverModel AlgModel TriAllModel.
From Verif Require Export RunModel.
From Verif Require Import Base Spec.

(** std::tolower for every character, "C" locale: ComplementMaskedSpGEMM.cpp 63 *)
Definition toLower (c : ascii) : ascii :=
  let n := nat_of_ascii c in if (65 <=? n) && (n <=? 90) then ascii_of_nat (n + 32) else c.
(** The numbers of calls and the mode: ComplementMaskedSpGEMM.cpp 56-59, 63 *)
Record settings := mkSet { s_outer : option nat; s_inner : option nat; s_warmup : option nat; s_mode : option text }.
(** ComplementMaskedSpGEMM.cpp 56 *)
Definition outerIters (s : settings) : nat := default 1 (s_outer s).
(** ComplementMaskedSpGEMM.cpp 57 *)
Definition innerIters (s : settings) : nat := default 1 (s_inner s).
(** ComplementMaskedSpGEMM.cpp 58-59 *)
Definition warmupIters (s : settings) : nat := default (if innerIters s =? 1 then 0 else 1) (s_warmup s).
(** ComplementMaskedSpGEMM.cpp 63 *)
Definition modeOf (s : settings) : text := toLower <$> default [] (s_mode s).

(** 8 bytes, lowest first: long and unsigned long *)
Definition bytes8 (n : N) : list N := (fun i => (n / 2 ^ (8 * N.of_nat i)) mod 256)%N <$> seq 0 8.
(** An index (long) in memory: benchmarks-util.h 35-43 *)
Definition bytesI (n : nat) : list N := bytes8 (N.of_nat n).
(** A value (unsigned long) in memory: benchmarks-util.h 35-43 *)
Definition bytesV (z : Z) : list N := bytes8 (Z.to_N z).

(** A use of RUN_CSR: the modes it is run in, the text of the argument, the kind of the product, the product.
    ComplementMaskedSpGEMM.cpp 32, 69-94. *)
Record bench := mkBench { b_modes : list text; b_name : text; b_kind : kind; b_prod : nat -> nat -> csr Z -> Prop }.

Section Main.
Context (pick : gmap nat (ablock Z) -> nat) (null0 : bool).
Notation heap := (gmap nat (ablock Z)).
(** [run] with Index_t = long, Value_t = unsigned long; [processAlgorithmName] of the name is in every line:
    benchmarks-util.h 135-144 *)
Definition bench1 (s : settings) (tnum : nat) (b : bench) (h : heap) (r : res (heap * list (text * line Z))) : Prop :=
  exists r1, run 0%Z pick null0 0%Z (stepInt 64) (plusInt 64) bytesI bytesV 8 8 (b_kind b) (b_prod b) (warmupIters s) (innerIters s) [tnum] h r1 /\
    r = (' (h, ls) <- r1 ;; n <- processAlgorithmName (b_name b) ;; Ok (h, pair n <$> ls)).
(** One pass over the products: ComplementMaskedSpGEMM.cpp 69-94 *)
Fixpoint pass (s : settings) (tnum : nat) (bs : list bench) (h : heap) (r : res (heap * list (text * line Z))) : Prop :=
  match bs with
  | [] => r = Ok (h, [])
  | b :: bs =>
    if bool_decide (modeOf s ∈ b_modes b) then
      exists r1, bench1 s tnum b h r1 /\
        match r1 with
        | Err e => r = Err e
        | Ok (h, ls) => exists r2, pass s tnum bs h r2 /\ r = (' (h, ls') <- r2 ;; Ok (h, ls ++ ls'))
        end
    else pass s tnum bs h r
  end.
(** [for (size_t i = 0; i < outerIters; i++)]: ComplementMaskedSpGEMM.cpp 68 *)
Fixpoint passes (s : settings) (tnum : nat) (bs : list bench) (n : nat) (h : heap) (r : res (heap * list (text * line Z))) : Prop :=
  match n with
  | 0 => r = Ok (h, [])
  | S n => exists r1, pass s tnum bs h r1 /\
    match r1 with
    | Err e => r = Err e
    | Ok (h, ls) => exists r2, passes s tnum bs n h r2 /\ r = (' (h, ls') <- r2 ;; Ok (h, ls ++ ls'))
    end
  end.

(** A call of a driver with A as both operands and mask: with [t] threads and on any output object, wherever the objects
    are and whatever malloc gives, it always ends with R in the output object.  ComplementMaskedSpGEMM.cpp 32;
    [nz], the nnz of the output object before, is not looked at. *)
Definition product1p (alg : rowalg Z) (A : csr Z) (t nz : nat) (R : csr Z) : Prop :=
  forall iA iC sc s, iA <> iC -> s !! iA = Some (DriverModel.OMat A) -> driver1p_always alg iA iA iA iC t sc s (<[iC := DriverModel.OMat R]> s).
(** The same for MaskedSpGEMM2p: ComplementMaskedSpGEMM.cpp 32; masked-spgemm.h 97-193 *)
Definition product2p (alg : rowalg Z) (A : csr Z) (t nz : nat) (R : csr Z) : Prop :=
  forall iA iC iR sc s, iA <> iC -> s !! iA = Some (DriverModel.OMat A) -> s !! iR = None -> iC <> iR ->
    driver2p_always alg iA iA iA iC iR t sc s (<[iC := DriverModel.OMat R]> s).

(** The products of ComplementMaskedSpGEMM.cpp 69-94.  [itmax]: the largest long.  Entries of the accumulators: MSA1A 16
    bytes (state and value), MSA2A 8, MaskedHash 8 and 24 (key; key, value and bool), Heap 24. *)
Definition compBenches (itmax : nat) (A : csr Z) : list bench :=
  let hp := [txt "heap"; txt "all"] in
  let ha := [txt "hash"; txt "all"] in
  let ms := [txt "msa"; txt "all"] in
  [ mkBench hp (str "(MaskedSpGEMM1p<MaskedHeap<true, true, 0>::Impl>)") K1p (product1p (heapAlgC mul64 add64 itmax 24) A);
    mkBench hp (str "(MaskedSpGEMM2p<MaskedHeap<true, true, 0>::Impl>)") K2p (product2p (heapAlgC mul64 add64 itmax 24) A);
    mkBench ha (str "(MaskedSpGEMM1p<MaskedHash<true, false>::Impl>)") K1p (product1p (hashAlgC mul64 add64 64 8 24 false) A);
    mkBench ha (str "(MaskedSpGEMM2p<MaskedHash<true, false>::Impl>)") K2p (product2p (hashAlgC mul64 add64 64 8 24 false) A);
    mkBench ha (str "(MaskedSpGEMM1p<MaskedHash<true, true>::Impl>)") K1p (product1p (hashAlgC mul64 add64 64 8 24 true) A);
    mkBench ha (str "(MaskedSpGEMM2p<MaskedHash<true, true>::Impl>)") K2p (product2p (hashAlgC mul64 add64 64 8 24 true) A);
    mkBench ms (str "(MaskedSpGEMM1p<MSA1A<true, false>::Impl>)") K1p (product1p (msaAlgC mul64 add64 false false 16) A);
    mkBench ms (str "(MaskedSpGEMM2p<MSA1A<true, false>::Impl>)") K2p (product2p (msaAlgC mul64 add64 false false 16) A);
    mkBench ms (str "(MaskedSpGEMM1p<MSA1A<true, true>::Impl>)") K1p (product1p (msaAlgC mul64 add64 false true 16) A);
    mkBench ms (str "(MaskedSpGEMM2p<MSA1A<true, true>::Impl>)") K2p (product2p (msaAlgC mul64 add64 false true 16) A);
    mkBench ms (str "(MaskedSpGEMM1p<MSA2A<true, false>::Impl>)") K1p (product1p (msaAlgC mul64 add64 true false 8) A);
    mkBench ms (str "(MaskedSpGEMM2p<MSA2A<true, false>::Impl>)") K2p (product2p (msaAlgC mul64 add64 true false 8) A);
    mkBench ms (str "(MaskedSpGEMM1p<MSA2A<true, true>::Impl>)") K1p (product1p (msaAlgC mul64 add64 true true 8) A);
    mkBench ms (str "(MaskedSpGEMM2p<MSA2A<true, true>::Impl>)") K2p (product2p (msaAlgC mul64 add64 true true 8) A) ].

(** (unsigned long) of an int: IO.h 104 *)
Definition ofInt64 (z : Z) : Z := (z mod 2 ^ 64)%Z.
(** main: ComplementMaskedSpGEMM.cpp 51-53, 67-95.  [stdsort]: std::sort on pairs; [file]: the text of the file. *)
Definition compMain (stdsort : list (nat * Z) -> list (nat * Z)) (itmax : nat) (file : option text) (s : settings) (tnum : nat)
    (h : heap) (r : res (heap * list (text * line Z))) : Prop :=
  exists rX, readASCII ofInt64 0%Z stdsort (Z.of_nat itmax) file rX /\
  match (X <- rX ;; A <- csrOfCsc 0%Z X ;; Ok (X, A)) with
  | Err e => r = Err e
  | Ok (X, A) => exists flop, getFlopCsc_always X X flop /\ passes s tnum (compBenches itmax A) (outerIters s) h r
  end.
End Main.
