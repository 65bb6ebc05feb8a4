(** The R-MAT generator of the GTgraph library and the matrices made from its graphs:
    GTgraph/R-MAT/graph.c, utils.c 62-172, init.c 111-143; benchmarks/HeatMap.cpp 17-32; sample/sample_common.hpp 134-166.

    Simplifications.  long is an unbounded natural.  double is any type with any operations (so the theorems hold for
    rounded arithmetic too).  The four SPRNG streams are functions from the number of earlier draws to the value drawn;
    init_sprng restarts them.  The flags are those of getParams (init.c 121-127: no self loops, kept in memory, sorted by
    counting sort); the branch of graph.c 30-76 that writes the edges to a file, and heapSort, are not entered with them.
    Arrays from malloc start with arbitrary contents [junk]. *)
From Verif Require Export GtModel.
From Verif Require Import Base Spec.

(** bits(x, k, j): utils.h 11 *)
Definition bits (x k j : nat) : nat := (x / 2 ^ k) mod 2 ^ j.

(** countsort_aux: utils.c 62-111.  The loop over j (1 <= j < 1) never runs. *)
Definition countsortAux (q : nat) (lKey lSorted auxKey auxSorted : list nat) (R bitOff m : nat) : res (list nat * list nat) :=
  mhp <- for_ 0 q (fun k mhp => x <- get lKey k ;; c <- get mhp (bits x bitOff m) ;; set_ mhp (bits x bitOff m) (c + 1)) (replicate R 0) ;;
  let psHisto := mhp in
  '(mhp, _) <- for_ 0 R (fun k '(mhp, offset) =>
      a <- get psHisto k ;;
      b <- get mhp k ;;
      mhp <- set_ mhp k ((a - b) + offset) ;;
      Ok (mhp, offset + a)) (mhp, 0) ;;
  '(_, lSorted, auxSorted) <- for_ 0 q (fun k '(mhp, lSorted, auxSorted) =>
      x <- get lKey k ;;
      p <- get mhp (bits x bitOff m) ;;
      y <- get auxKey k ;;
      lSorted <- set_ lSorted p x ;;
      auxSorted <- set_ auxSorted p y ;;
      mhp <- set_ mhp (bits x bitOff m) (p + 1) ;;
      Ok (mhp, lSorted, auxSorted)) (mhp, lSorted, auxSorted) ;;
  Ok (lSorted, auxSorted).

(** A loop [dst[i] = src[index[i]]]: utils.c 149-151, 161-163 *)
Definition gather {A} (src : list A) (index : list nat) (dst : list A) (m : nat) : res (list A) :=
  for_ 0 m (fun i dst => k <- get index i ;; x <- get src k ;; set_ dst i x) dst.

(** countingSort: utils.c 114-172 *)
Definition countingSort {V} (junkK junkI : list nat) (junkW : list V) (keys auxKey1 : list nat) (auxKey2 : list V) (m : nat)
  : res (list nat * list nat * list V) :=
  '(index, keysSorted) <- for_ 0 m (fun i '(index, keysSorted) =>
      index <- set_ index i i ;; keysSorted <- set_ keysSorted i 0 ;; Ok (index, keysSorted)) (junkI, junkK) ;;
  '(keysSorted, indexSorted) <- countsortAux m keys keysSorted index junkI (2 ^ 11) 0 11 ;;
  '(keys, index) <- countsortAux m keysSorted keys indexSorted index (2 ^ 11) 11 11 ;;
  '(keysSorted, indexSorted) <- countsortAux m keys keysSorted index indexSorted (2 ^ 10) 22 10 ;;
  keys <- for_ 0 m (fun i keys => x <- get keysSorted i ;; set_ keys i x) keys ;;
  t1 <- gather auxKey1 indexSorted keysSorted m ;;
  auxKey1 <- for_ 0 m (fun i d => x <- get t1 i ;; set_ d i x) auxKey1 ;;
  wt <- gather auxKey2 indexSorted junkW m ;;
  auxKey2 <- for_ 0 m (fun i d => x <- get wt i ;; set_ d i x) auxKey2 ;;
  Ok (keys, auxKey1, auxKey2).

Section Rmat.
Context {D V : Type} (fadd fsub fmul fdiv : D -> D -> D) (fltb : D -> D -> bool) (f005 f05 : D).
Context (s1 s3 s4 : nat -> D) (weightAt : nat -> V).

(** The global variables a, b, c, d (globals.c 8-11). *)
Notation params := (D * D * D * D)%type.
(** The variables with the numbers of draws made so far from streams 1, 3 and 4 (streams 3 and 4 are drawn from together). *)
Record gen := mkGen { par : params; d1 : nat; d34 : nat }.

(** choosePartition: graph.c 158-182 *)
Definition choosePartition (g : gen) (u v step : nat) : gen * nat * nat :=
  let '(a, b, c, d) := par g in
  let p := s1 (d1 g) in
  let g := mkGen (par g) (d1 g + 1) (d34 g) in
  if fltb p a then (g, u, v)
  else if fltb a p && fltb p (fadd a b) then (g, u, v + step)
  else if fltb (fadd a b) p && fltb p (fadd (fadd a b) c) then (g, u + step, v)
  else if fltb (fadd (fadd a b) c) p && fltb p (fadd (fadd (fadd a b) c) d) then (g, u + step, v + step)
  else (g, u, v).

(** varyParams: graph.c 184-219.  The second one is increased in both branches. *)
Definition varyParams (g : gen) : gen :=
  let '(a, b, c, d) := par g in
  let k := d34 g in
  let a := if fltb f05 (s4 k) then fadd a (fmul (fmul a f005) (s3 k)) else fsub a (fmul (fmul a f005) (s3 k)) in
  let b := if fltb f05 (s4 (k + 1)) then fadd b (fmul (fmul b f005) (s3 (k + 1))) else fadd b (fmul (fmul b f005) (s3 (k + 1))) in
  let c := if fltb f05 (s4 (k + 2)) then fadd c (fmul (fmul c f005) (s3 (k + 2))) else fsub c (fmul (fmul c f005) (s3 (k + 2))) in
  let d := if fltb f05 (s4 (k + 3)) then fadd d (fmul (fmul d f005) (s3 (k + 3))) else fsub d (fmul (fmul d f005) (s3 (k + 3))) in
  let S := fadd (fadd (fadd a b) c) d in
  mkGen (fdiv a S, fdiv b S, fdiv c S, fdiv d S) (d1 g) (k + 4).

(** The loop over the levels: graph.c 91-95; [fuel] bounds the number of rounds *)
Fixpoint levels (fuel : nat) (g : gen) (u v step : nat) : res (gen * nat * nat) :=
  match fuel with
  | 0 => Err OutOfFuel
  | S fuel =>
    if 1 <=? step then
      let '(g, u, v) := choosePartition g u v step in levels fuel (varyParams g) u v (step / 2)
    else Ok (g, u, v)
  end.

(** The loop over the edges: graph.c 85-106; [fuel] bounds the number of rounds *)
Fixpoint edgeLoop (fuel : nat) (n m : nat) (p0 : params) (g : gen) (i : nat) (startV endV : list nat) : res (gen * list nat * list nat) :=
  match fuel with
  | 0 => Err OutOfFuel
  | S fuel =>
    if i <? m then
      '(g, u, v) <- levels (n + 1) (mkGen p0 (d1 g) (d34 g)) 1 1 (n / 2) ;;
      if u =? v then edgeLoop fuel n m p0 g i startV endV
      else
        startV <- set_ startV i (u - 1) ;;
        endV <- set_ endV i (v - 1) ;;
        edgeLoop fuel n m p0 g (i + 1) startV endV
    else Ok (g, startV, endV)
  end.

(** graphGen: graph.c 4-155 with the flags above; also the variables it leaves behind.  [weightAt i] is the weight computed
    from draw i of stream 2 (graph.c 121-122). *)
Definition graphGen (fuel : nat) (junk : list nat) (junkW : list V) (n m : nat) (p0 : params) : res (graph V * params) :=
  '(g, startV, endV) <- edgeLoop fuel n m p0 (mkGen p0 0 0) 0 junk junk ;;
  weights <- for_ 0 m (fun i w => set_ w i (weightAt i)) junkW ;;
  '(startV, endV, weights) <- countingSort junk junk junkW startV endV weights m ;;
  Ok (mkGraph n m startV endV weights, par g).

Context (dflt : V) (add : V -> V -> V) (stdsort : list (nat * nat * V) -> list (nat * nat * V)).
(** createRMATMatrix: benchmarks/HeatMap.cpp 17-32; getParams, setGTgraphParams: init.c 111-143 (n = 2^scale, m = n * degree) *)
Definition createMatrix (fuel : nat) (junk : list nat) (junkW : list V) (scale degree : nat) (p0 : params) : res (csc V) :=
  '(G, _) <- graphGen fuel junk junkW (2 ^ scale) (2 ^ scale * degree) p0 ;;
  cscOfGraph dflt add stdsort G.

(** The two generated inputs: sample/sample_common.hpp 134-166 *)
Definition createInputs (fuel : nat) (junk : list nat) (junkW : list V) (scale degree : nat) (p0 : params) : res (csc V * csc V) :=
  '(G1, p1) <- graphGen fuel junk junkW (2 ^ scale) (2 ^ scale * degree) p0 ;;
  A <- cscOfGraph dflt add stdsort G1 ;;
  '(G2, _) <- graphGen fuel junk junkW (2 ^ scale) (2 ^ scale * degree) p1 ;;
  B <- cscOfGraph dflt add stdsort G2 ;;
  Ok (A, B).
End Rmat.
