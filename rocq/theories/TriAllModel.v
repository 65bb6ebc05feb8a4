(** benchmarks/TriCntAll.cpp: preprocessInput, HashIntersect and the products that main runs; and
    util/triple-util.h.

    Simplifications.  Indices are unbounded naturals and values of the type V in preprocessInput; the values of
    main (unsigned long) are integers modulo 2^64.  [new Triple[n]] holds n times Triple() = (0, 0, 0)
    (Triple.h 13).  std::sort takes the comparison as an argument; the theorems allow any function with its
    contract.  Printing, timing and the arguments of the program are left out. *)
From Coq Require Import NArith ZArith.
From Verif Require Export MatModel IsectModel HashHwModel IndexModel.
From Verif Require Import Base Spec.

(** A triple: row, column, value.  Triple.h 8-13 *)
Definition triple (V : Type) : Type := nat * nat * V.
(** row: Triple.h 8-13 *)
Definition t_row {V} (t : triple V) : nat := fst (fst t).
(** col: Triple.h 8-13 *)
Definition t_col {V} (t : triple V) : nat := snd (fst t).
(** Triple(); [zero] is NT(0).  Triple.h 13 *)
Definition triple0 {V} (zero : V) : triple V := (0, 0, zero).

(** The loop over the sorted triples: TriCntAll.cpp 230-237; util/triple-util.h 15-22 *)
Definition uniqueTriples {V} (arr : list (triple V)) (n : nat) : res (list (triple V) * nat) :=
  for_ 1 n (fun src '(arr, dst) =>
    x <- get arr src ;;
    y <- get arr (src - 1) ;;
    if negb (t_row x =? t_row y) || negb (t_col x =? t_col y) then
      arr' <- set_ arr dst x ;;
      Ok (arr', dst + 1)
    else Ok (arr, dst)) (arr, 1).

(** [std::sort(triples, triples + n, lt)]: TriCntAll.cpp 226-228; util/triple-util.h 11-13 *)
Definition sortFirst {X} (srt : (X -> X -> bool) -> list X -> list X) (lt : X -> X -> bool) (arr : list X) (n : nat) : res (list X) :=
  if length arr <? n then Err OutOfBounds else Ok (srt lt (take n arr) ++ drop n arr).

(** The two comparisons: util/triple-util.h 11-13; TriCntAll.cpp 226-228 *)
Definition tripleLt {V} (lhs rhs : triple V) : bool := (t_row lhs <? t_row rhs) || ((t_row lhs =? t_row rhs) && (t_col lhs <? t_col rhs)).
(** The comparison of TriCntAll.cpp 226-228 *)
Definition tripleGt {V} (lhs rhs : triple V) : bool := (t_row rhs <? t_row lhs) || ((t_row rhs =? t_row lhs) && (t_col rhs <? t_col lhs)).

Section Triples.
Context {V : Type} (sortT : (triple V -> triple V -> bool) -> list (triple V) -> list (triple V)).

(** [removeDuplicates]: util/triple-util.h 8-23.  Result: the array and the returned number. *)
Definition removeDuplicates (n : nat) (arr : list (triple V)) : res (list (triple V) * nat) :=
  arr <- sortFirst sortT tripleLt arr n ;;
  uniqueTriples arr n.

(** [generateRandomTriples]: util/triple-util.h 25-41.  [draws] are the numbers drawn, row then column, for
    each i; [zero] and [one] are NT(0) and NT(1). *)
Definition generateRandomTriples (zero one : V) (draws : nat -> nat * nat) (n : nat) : res (list (triple V) * nat) :=
  arr <- for_ 0 n (fun i arr => set_ arr i (fst (draws i), snd (draws i), one)) (replicate n (triple0 zero)) ;;
  removeDuplicates n arr.
End Triples.

Section Pre.
Context {V : Type} (zero one : V).
Context (sortP : (nat * nat -> nat * nat -> bool) -> list (nat * nat) -> list (nat * nat)).
Context (sortT : (triple V -> triple V -> bool) -> list (triple V) -> list (triple V)).
Context (stdsort : list (nat * V) -> list (nat * V)).

(** [std::greater<>{}] on pairs: TriCntAll.cpp 207 *)
Definition pairGt (x y : nat * nat) : bool := (fst y <? fst x) || ((fst y =? fst x) && (snd y <? snd x)).

(** rowcnts before it is sorted: TriCntAll.cpp 201-205 *)
Definition rowCounts (A : csc V) : res (list (nat * nat)) :=
  rc <- for_ 0 (c_rows A) (fun i rc => x <- get rc i ;; set_ rc i (fst x, i)) (replicate (c_rows A) (0, 0)) ;;
  for_ 0 (c_nnz A) (fun i rc => r <- get (rowids A) i ;; x <- get rc r ;; set_ rc r (fst x + 1, snd x)) rc.

(** Body of the inner loop: TriCntAll.cpp 214-222 *)
Definition putTriple (rc : list (nat * nat)) (A : csc V) (i j : nat) (s : list (triple V) * nat) : res (list (triple V) * nat) :=
  let '(arr, idx) := s in
  x <- get rc i ;;
  r <- get (rowids A) j ;;
  y <- get rc r ;;
  let col := snd x in
  let row := snd y in
  if col <? row then arr' <- set_ arr idx (row, col, one) ;; Ok (arr', idx + 1)
  else if row <? col then arr' <- set_ arr idx (col, row, one) ;; Ok (arr', idx + 1)
  else Ok (arr, idx).

(** The array triples and idx: TriCntAll.cpp 209-224.  The bounds are read once, the array colptr does not
    change. *)
Definition makeTriples (rc : list (nat * nat)) (A : csc V) : res (list (triple V) * nat) :=
  for_ 0 (c_cols A) (fun i s =>
    b <- get (colptr A) i ;;
    e <- get (colptr A) (i + 1) ;;
    for_ b e (putTriple rc A i) s) (replicate (c_nnz A) (triple0 zero), 0).

(** Up to the new matrix: TriCntAll.cpp 201-237 *)
Definition preTriples (A : csc V) : res (list (triple V) * nat) :=
  rc <- rowCounts A ;;
  '(arr, idx) <- makeTriples (sortP pairGt rc) A ;;
  arr <- sortFirst sortT tripleGt arr idx ;;
  uniqueTriples arr idx.

(** [preprocessInput] (TriCntAll.cpp 199-242) always ends and leaves [L] in its argument. *)
Definition preprocessInput_ends (A L : csc V) : Prop :=
  exists arr idx, preTriples A = Ok (arr, idx) /\ cscOfItems_ends zero stdsort arr idx (c_rows A) (c_cols A) L.

(** [HashIntersect]: TriCntAll.cpp 244-251.  The products by HashSpGEMM<true>, then Intersect with the function
    that returns its second argument; [top] and the sizes as in these. *)
Definition hashIntersect_ends (mul add : V -> V -> V) (w : N) (W top nts nt : nat) (A B M C : csr V) : Prop :=
  exists Ct, hashSpGEMM_ends zero mul add w W stdsort true top nts nt A B Ct /\
    intersect_ends zero (fun lhs rhs => rhs) top nt Ct M (Some C).
End Pre.

(** multiplies<unsigned long> and plus<unsigned long>: TriCntAll.cpp 263; benchmarks/benchmarks-util.h 118, 125 *)
Definition mul64 (a b : Z) : Z := ((a * b) mod 2 ^ 64)%Z.
(** plus<unsigned long>: benchmarks-util.h 118, 125 *)
Definition add64 (a b : Z) : Z := ((a + b) mod 2 ^ 64)%Z.
