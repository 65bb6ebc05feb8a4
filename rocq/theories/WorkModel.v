(** Flop counting, work distribution and input scanning: spgemm-blocks/common.h *)
From Verif Require Export Base KernelBase Conc ScanModel Spec.

(** std::lower_bound (libstdc++ bits/stl_algobase.h __lower_bound), as called in common.h 110-111. *)
Fixpoint lower_bound_go (fuel : nat) (arr : list nat) (first len val : nat) : res nat :=
  if len =? 0 then Ok first
  else match fuel with
  | O => Err OutOfFuel
  | S fuel' =>
    let half := len / 2 in
    x <- get arr (first + half) ;;
    if x <? val then lower_bound_go fuel' arr (first + half + 1) (len - half - 1) val
    else lower_bound_go fuel' arr first half val
  end.
(** std::lower_bound, called in common.h 110-111 *)
Definition lower_bound (arr : list nat) (n val : nat) : res nat := lower_bound_go n arr 0 n val.

(** [distributeWork]: common.h 106-115 *)
Definition distributeWork (totalWork : nat) (accum : list nat) (nrows nt tid : nat) : res (nat * nat) :=
  if nt =? 0 then Err DivByZero else
  let workPerThread := totalWork / nt in
  rb <- (if tid =? 0 then Ok 0 else lower_bound accum nrows (workPerThread * tid)) ;;
  re <- (if tid =? nt - 1 then Ok nrows else lower_bound accum nrows (workPerThread * (tid + 1))) ;;
  Ok (rb, re).

Section Flops.
Context {V : Type}.

(** Body of the row loop of [calculateFlops(A, B, ...)]: common.h 51-56; the same loop is in
    [calculateMultOps], common.h 33-38. *)
Definition flopsRow (A B : csr V) (i : nat) : res nat :=
  '(ab, ae) <- row_bounds A i ;;
  for_ ab ae (fun j acc =>
    inner <- get (colids A) j ;;
    e <- get (rowptr B) (inner + 1) ;;
    b <- get (rowptr B) inner ;;
    Ok (acc + (e - b))) 0.

(** Body of the row loop of [calculateFlops(A, B, M, ...)]: common.h 70-77 *)
Definition flopsRowM (A B M : csr V) (i : nat) : res nat :=
  e <- get (rowptr M) (i + 1) ;;
  b <- get (rowptr M) i ;;
  if e =? b then Ok 0 else flopsRow A B i.

(** Body of the row loop of [calculateWork]: common.h 91-96 *)
Definition workRow (A : csr V) (B : csc V) (M : csr V) (i : nat) : res nat :=
  '(mb, me) <- row_bounds M i ;;
  for_ mb me (fun j acc =>
    ae <- get (rowptr A) (i + 1) ;;
    ab <- get (rowptr A) i ;;
    c <- get (colids M) j ;;
    be <- get (colptr B) (c + 1) ;;
    bb <- get (colptr B) c ;;
    let lenA := ae - ab in let lenB := be - bb in
    Ok (if negb (lenA =? 0) && negb (lenB =? 0) then acc + (lenA + lenB) else acc)) 0.

(** One thread of [#pragma omp parallel for reduction(+:flops)] (common.h 49-59, 68-80, 89-99): it runs
    the iterations given to it, stores the row's count and adds it to its private copy. *)
Fixpoint parforThread (row : nat -> res nat) (its : list nat) (acc : nat) : prog loc (option nat) nat :=
  match its with
  | [] => Ret acc
  | i :: its' => pbind (lift (row i)) (fun f => Wr (0, i) (Some f) (parforThread row its' (acc + f)))
  end.

(** The whole loop over [nrows] rows always ends with [dst'] in the per-row array and the sum [total].
    [asg] says which iterations each thread runs and in which order: OpenMP may choose any
    distribution; the private copies are added up in any order.  common.h 45-102. *)
Definition parfor_always (row : nat -> res nat) (nrows : nat) (dst dst' : list (option nat)) (total : nat) : Prop :=
  forall asg : list (list nat), mjoin asg ≡ₚ seq 0 nrows ->
  exists m partial,
    always (cells 0 dst, (fun its => parforThread row its 0) <$> asg) m partial /\
    length dst' = length dst /\ (forall i, i < length dst -> m !! (0, i) = dst' !! i) /\
    (forall order, order ≡ₚ partial -> fold_left Nat.add order 0 = total).

(** calculateFlops, both versions: common.h 45-62, 64-83; calculateWork: common.h 85-102.
    [IT] arithmetic is unbounded here; wrap-around is treated in [flopsRowW]. *)
Definition calculateFlops_always (A B : csr V) := parfor_always (flopsRow A B) (rows A).
(** calculateFlops with a mask: common.h 64-83 *)
Definition calculateFlopsM_always (A B M : csr V) := parfor_always (flopsRowM A B M) (rows A).
(** calculateWork: common.h 85-102 *)
Definition calculateWork_always (A : csr V) (B : csc V) (M : csr V) := parfor_always (workRow A B M) (rows M).

(** The count in a [w]-bit unsigned index type: common.h 51-56 with the sum taken modulo 2^w. *)
Definition flopsRowW (w : N) (A B : csr V) (i : nat) : res N :=
  f <- flopsRow A B i ;; Ok (N.of_nat f mod 2 ^ w)%N.

(** [scanInputs]: common.h 127-146.  Result: sizeC, maxRowSizeA, maxRowSizeM, maxRowFlops. *)
Definition rowLen (X : csr V) (row : nat) : res nat :=
  e <- get (rowptr X) (row + 1) ;; b <- get (rowptr X) row ;; Ok (e - b).
(** scanInputs: common.h 127-146 *)
Definition scanInputs (compl calcC calcA calcM calcF : bool) (rb re : nat) (flops : list nat) (A M : csr V)
  : res (nat * nat * nat * nat) :=
  for_ rb re (fun row '(sc, ma, mm, mf) =>
    sc' <- (if calcC then
              if negb compl then f <- get flops row ;; lm <- rowLen M row ;; Ok (sc + Nat.min f lm)
              else f <- get flops row ;; Ok (sc + f)
            else Ok sc) ;;
    ma' <- (if calcA then la <- rowLen A row ;; Ok (Nat.max ma la) else Ok ma) ;;
    mm' <- (if calcM then lm <- rowLen M row ;; Ok (Nat.max mm lm) else Ok mm) ;;
    mf' <- (if calcF then f <- get flops row ;; Ok (Nat.max mf f) else Ok mf) ;;
    Ok (sc', ma', mm', mf')) (0, 0, 0, 0).

(** [estimateResultSize]: common.h 117-125 *)
Definition estimateResultSize (rb re : nat) (flops : list nat) (M : csr V) : res nat :=
  for_ rb re (fun row sz => f <- get flops row ;; lm <- rowLen M row ;; Ok (sz + Nat.min f lm)) 0.
End Flops.
