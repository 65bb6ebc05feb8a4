(** benchmarks/HeatMap.cpp with matrixType ER: the matrices it makes and which of them it multiplies.

    Simplifications.  The indices of main (uint32_t) are numbers; the doubling of deg and nrows * deg are taken
    modulo 2^32.  std::mt19937 gen is made anew, with the default seed, in every call (util/triple-util.h 27), and the
    distributions depend on the dimensions only: the numbers drawn are a function of the dimensions.  Timing, printing,
    the program's arguments, the R-MAT generator (18-31, 91-96) and the deletion of the matrices are left out. *)
From Coq Require Import NArith ZArith.
From Verif Require Export TriAllModel.
From Verif Require Import Base Spec.

(** The degrees [for (IT deg = degMin; deg <= degMax; deg *= 2)] runs through: HeatMap.cpp 75, 80 *)
Fixpoint degrees (fuel : nat) (deg degMax : N) : res (list N) :=
  if (deg <=? degMax)%N then
    match fuel with
    | O => Err OutOfFuel
    | S fuel' => ds <- degrees fuel' ((deg * 2) mod 2 ^ 32)%N degMax ;; Ok (deg :: ds)
    end
  else Ok [].

Section Heat.
Context {V : Type} (zero one : V) (sortT : (triple V -> triple V -> bool) -> list (triple V) -> list (triple V))
  (stdsort : list (nat * V) -> list (nat * V)) (draws : nat -> nat -> nat -> nat * nat).

(** One matrix, of type ER, and its CSR form: HeatMap.cpp 84-88, 99-100 *)
Definition erMatrix_ends (nrows ncols : nat) (deg : N) (X : csc V) (Y : csr V) : Prop :=
  exists arr nvals,
    generateRandomTriples sortT zero one (draws nrows ncols) (N.to_nat ((N.of_nat nrows * deg) mod 2 ^ 32)%N) = Ok (arr, nvals) /\
    cscOfItems_ends zero stdsort arr nvals nrows ncols X /\
    csrOfCsc zero X = Ok Y.

(** [createMatrices] of type ER always ends with these vectors: HeatMap.cpp 71-103 *)
Definition createMatrices_ends (nrows ncols : nat) (degMin degMax : N) (cs : list (csc V * N)) (rs : list (csr V * N)) : Prop :=
  exists fuel ds, degrees fuel degMin degMax = Ok ds /\ length cs = length ds /\ length rs = length ds /\
  forall idx deg, ds !! idx = Some deg ->
    exists X Y, erMatrix_ends nrows ncols deg X Y /\ cs !! idx = Some (X, deg) /\ rs !! idx = Some (Y, deg).

(** The matrices of one dimension: HeatMap.cpp 202-204 *)
Definition heatInputs_ends (maxRowsA dim : nat) (dAMin dAMax dBMin dBMax dMMin dMMax : N)
    (rA : list (csr V * N)) (cB : list (csc V * N)) (rB rM : list (csr V * N)) : Prop :=
  (exists cA, createMatrices_ends (Nat.min maxRowsA dim) dim dAMin dAMax cA rA) /\
  createMatrices_ends dim dim dBMin dBMax cB rB /\
  (exists cM, createMatrices_ends (Nat.min maxRowsA dim) dim dMMin dMMax cM rM).
End Heat.

(** The indices for which the algorithms are run, in order: HeatMap.cpp 207-235.  The read of BsCSR[idxB] in line 212 is
    the one that can fail. *)
Definition heatVisits (sameAB : bool) (nA nB nM : nat) : res (list (nat * nat * nat)) :=
  let visit idxA idxB acc :=
    for_ 0 nM (fun idxM acc => if idxB <? nB then Ok (acc ++ [(idxA, idxB, idxM)]) else Err OutOfBounds) acc in
  for_ 0 nA (fun idxA acc =>
    if sameAB then if 0 <? nB then visit idxA idxA acc else Ok acc
    else for_ 0 nB (fun idxB acc => visit idxA idxB acc) acc) [].
