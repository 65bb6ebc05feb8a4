(** HeapSpGEMM on compressed columns: heap_mult.h 1-222.

    Simplifications.  Index arithmetic is unbounded; a difference that would be negative is a fault.  A heap entry's field
    loc is kept as the position A.colptr[inner] + loc - 1 of the entry in A, and its field value is computed again
    from the two positions where it is used (135, 163: the same multop of the same two cells).  The cells of
    mergeheap at and beyond hsize are dead between columns.  The parallel regions 91-100, 108-119, 122-173 are one: in
    the first two each thread writes only cells of its own.  A thread keeps colEnd[i] in a local while it
    works on column i.  Line 88 (size, never used) is left out.  The copies of 204 and 205 are interleaved.  A team
    of numThreads threads is delivered in every region.  malloc never fails; the local arrays are not followed beyond 207. *)
From Verif Require Import KernelBase HeapModel.
From Verif Require Export TwoPassModel WorkModel DriverModel.
From Verif Require Import Base Spec.

(** [a - b] of two positions.  heap_mult.h 85-110, 200-230. *)
Definition diff (a b : nat) : res nat := if b <=? a then Ok (a - b) else Err OutOfBounds.

(** A thread's part of the result: LocalRowIdsofC[tid], LocalValuesofC[tid] (98-99).  [None]: nothing stored there. *)
Record lout (V : Type) := mkLout { lo_ids : list nat; lo_vals : list (option V) }.
Arguments mkLout {V} _ _.
Arguments lo_ids {V} _.
Arguments lo_vals {V} _.

Section HeapCsc.
Context {V : Type} (mul add : V -> V -> V).
Notation store := (gmap nat (obj V)).

(** Body of the column loop of get_flop: heap_mult.h 20-26 *)
Definition flopsCol (A B : csc V) (i : nat) : res nat :=
  b <- get (colptr B) i ;;
  e <- get (colptr B) (i + 1) ;;
  for_ b e (fun j acc =>
    inner <- get (rowids B) j ;;
    y <- get (colptr A) (inner + 1) ;;
    x <- get (colptr A) inner ;;
    Ok (acc + (y - x))) 0.

(** One iteration of the loop that makes the initial heap: 130-137; [cap] is threadHeapSize[thisThread] *)
Definition initC (A B : csc V) (cap j : nat) (h : list hentry) : res (list hentry) :=
  inner <- get (rowids B) j ;;
  y <- get (colptr A) (inner + 1) ;;
  x <- get (colptr A) inner ;;
  if 0 <? y - x then
    key <- get (rowids A) x ;;
    if length h <? cap then Ok (h ++ [mkEnt key j x]) else Err OutOfBounds
  else Ok h.

(** The merge loop: 142-170; [act] is the use of the entry *)
Fixpoint popLoop {S} (act : hentry -> S -> res S) (fuel : nat) (A B : csc V) (h : list hentry) (s : S) : res S :=
  match fuel with
  | O => Err OutOfFuel
  | Datatypes.S fuel' =>
    if length h =? 0 then Ok s
    else
      h <- pop_heap h ;;
      e <- get h (length h - 1) ;;
      s <- act e s ;;
      inner <- get (rowids B) (erunr e) ;;
      y <- get (colptr A) (inner + 1) ;;
      h <- (if eloc e + 1 <? y then
              key <- get (rowids A) (eloc e + 1) ;;
              h <- set_ h (length h - 1) (mkEnt key (erunr e) (eloc e + 1)) ;;
              push_heap h
            else Ok (take (length h - 1) h)) ;;
      popLoop act fuel' A B h s
  end.

(** 147-154: [st] is colStart[i], [base] is colStart[colPerThread[thisThread]]; the state is colEnd[i] and the local arrays *)
Definition putC (A B : csc V) (st base : nat) (e : hentry) (s : nat * lout V) : res (nat * lout V) :=
  let '(en, L) := s in
  a <- get (c_values A) (eloc e) ;;
  b <- get (c_values B) (erunr e) ;;
  p <- diff en base ;;
  same <- (if st <? en then k <- get (lo_ids L) (p - 1) ;; Ok (k =? ek e) else Ok false) ;;
  if same : bool then
    old <- getI (lo_vals L) (p - 1) ;;
    vs <- set_ (lo_vals L) (p - 1) (Some (add (mul a b) old)) ;;
    Ok (en, mkLout (lo_ids L) vs)
  else
    vs <- set_ (lo_vals L) p (Some (mul a b)) ;;
    ids <- set_ (lo_ids L) p (ek e) ;;
    Ok (en + 1, mkLout ids vs).

(** One column: 128-170.  [ct] is colPerThread[thisThread], [en] is colEnd[i]. *)
Definition heapCol (A B : csc V) (cs : list nat) (ct cap i en : nat) (L : lout V) : res (nat * lout V) :=
  b <- get (colptr B) i ;;
  e <- get (colptr B) (i + 1) ;;
  h <- for_ b e (initC A B cap) [] ;;
  h <- make_heap h ;;
  st <- get cs i ;;
  base <- get cs ct ;;
  popLoop (putC A B st base) (c_nnz B * c_nnz A + 1) A B h (en, L).

(** The arrays colEnd, colPerThread, col_nz: 63, 61, 188 *)
Definition aEnd : nat := 0.
(** colPerThread: 61 *)
Definition aCut : nat := 1.
(** col_nz: 188 *)
Definition aCnz : nat := 2.
Notation nprog := (prog loc nat).

(** 75-77: iteration [k] of the loop is [i = k + 1] *)
Definition endBody (cs : list nat) (k : nat) : nprog unit :=
  pbind (lift (get cs (k + 1))) (fun x => Wr (aEnd, k + 1) x (Ret tt)).
(** 81-83 *)
Definition cutBody (cs : list nat) (ncols fpt t : nat) : nprog unit :=
  pbind (lift (lower_bound cs ncols (fpt * (t + 1)))) (fun e => Wr (aCut, t + 1) e (Ret tt)).

(** Thread [t] of 91-173 *)
Definition heapThread (A B : csc V) (flops cs cut : list nat) (t : nat) : nprog (lout V) :=
  pbind (lift (get cut t)) (fun lo => pbind (lift (get cut (t + 1))) (fun hi =>
  pbind (lift (for_ lo hi (fun i s => f <- get flops i ;; Ok (s + f)) 0)) (fun n =>
  pbind (lift (for_ lo hi (fun i mx => e <- get (colptr B) (i + 1) ;; b <- get (colptr B) i ;; Ok (if mx <? e - b then e - b else mx)) 0)) (fun cap =>
  pfor lo hi (fun i L => Rd (aEnd, i) (fun en => pbind (lift (heapCol A B cs lo cap i en L)) (fun '(en, L) => Wr (aEnd, i) en (Ret L))))
    (mkLout (replicate n 0) (replicate n None)))))).

(** 177-183, CSC.h 49-60, 81: [if (C.isEmpty()) C.make_empty(); C.rows = A.rows; C.cols = B.cols].  [lost] counts the cells of
    C's arrays that nobody refers to any more once 185, 197, 198 have replaced the pointers, and that were not
    released.  The old arrays are not read after that. *)
Definition resetC (iA iB iC : nat) (s : store) : res (store * nat * nat * nat) :=
  C <- deref_csc s iC ;;
  let e := c_nnz C =? 0 in
  let s := if e then <[iC := OCsc (mkCsc 0 0 (c_nnz C) [] (rowids C) (c_values C))]> s else s in
  let lost := (if e && negb (c_cols C =? 0) then 0 else length (colptr C)) + length (rowids C) + length (c_values C) in
  A <- deref_csc s iA ;;
  C <- deref_csc s iC ;;
  let s := <[iC := OCsc (mkCsc (c_rows A) (c_cols C) (c_nnz C) (colptr C) (rowids C) (c_values C))]> s in
  B <- deref_csc s iB ;;
  C <- deref_csc s iC ;;
  Ok (s, c_rows C, c_cols B, lost).

(** 190-192 *)
Definition nzBody (cs en : list nat) (i : nat) : nprog unit :=
  pbind (lift (get en i)) (fun y => pbind (lift (get cs i)) (fun x => pbind (lift (diff y x)) (fun n => Wr (aCnz, i) n (Ret tt)))).

(** What 204-205 copy of column [i]; the state is colPerThread[thisThread] and the thread's arrays *)
Definition localCol (cs en : list nat) (i : nat) (s : nat * lout V) : res ((nat * lout V) * list (nat * V)) :=
  let '(ct, L) := s in
  x <- get cs i ;; y <- get en i ;; base <- get cs ct ;;
  p <- diff x base ;; q <- diff y base ;;
  l <- for_ p q (fun k l => c <- get (lo_ids L) k ;; v <- getI (lo_vals L) k ;; Ok (l ++ [(c, v)])) [] ;;
  Ok (s, l).

(** HeapSpGEMM(A, B, C, multop, addop) on the objects [iA], [iB], [iC] of [s], with [nt] threads ([nts] in the prefix sums), always ends with
    the objects as in [s']; [lost] as in resetC.  heap_mult.h 46-222.  The racy store to numThreads (50-53) is of one value
    by all threads.  [dflt] is NT(), with which my_malloc fills C.values. *)
Definition HeapCsc_ends (dflt : V) (top nts nt iA iB iC : nat) (s s' : store) (lost : nat) : Prop :=
  1 <= nt /\
  exists A B, deref_csc s iA = Ok A /\ deref_csc s iB = Ok B /\
  exists flops total, parfor_always (flopsCol A B) (c_cols B) (replicate (c_cols B) (Some 0)) (Some <$> flops) total /\
  exists st0 en0, set_ (replicate (c_cols B) (Some 0)) 0 (Some 0) = Ok st0 /\ set_ (replicate (c_cols B) 0) 0 0 = Ok en0 /\
  exists cs, lScan_always 0 Nat.add top flops (c_cols B) nts st0 (Some <$> cs) /\
  exists en1, parfor_ends (endBody cs) (c_cols B - 1) (cells aEnd en0) (cells aEnd en1) /\
  exists cut0 cut1 cut, set_ (replicate (nt + 1) 0) 0 0 = Ok cut0 /\
    parfor_ends (cutBody cs (c_cols B) ((total * 2) / 2 / nt)) nt (cells aCut cut0) (cells aCut cut1) /\ set_ cut1 nt (c_cols B) = Ok cut /\
  exists en locals, always (cells aEnd en1, heapThread A B flops cs cut <$> seq 0 nt) (cells aEnd en) locals /\
  exists s1 nr nc, resetC iA iB iC s = Ok (s1, nr, nc, lost) /\
  exists nz, parfor_ends (nzBody cs en) nc (cells aCnz (replicate nc 0)) (cells aCnz nz) /\
  exists C, c_rows C = nr /\ c_cols C = nc /\
    lScan_always 0 Nat.add top nz (nc + 1) nts (replicate (nc + 1) (Some 0)) (Some <$> colptr C) /\
    get (colptr C) nc = Ok (c_nnz C) /\
  exists asg, chunks cut nt = Ok asg /\
    always (numMem (replicate (c_nnz C) 0) (replicate (c_nnz C) dflt),
            numThreads (fun t => L <- get locals t ;; ct <- get cut t ;; Ok (ct, L)) (localCol cs en) (colptr C) asg)
      (numMem (rowids C) (c_values C)) (replicate nt tt) /\
  s' = <[iC := OCsc C]> s1.
End HeapCsc.
