(** HeapSpGEMM over its row algorithms BasicHeap, HeapLinear, MaskedHeap_v0/v1/v2, MCA_v1/v2/v3:
    heap_mult_generic.h 1-824.

    Simplifications.  Index arithmetic is unbounded, except for the estimate of line 68, which is added up in
    an int.  The two cursors prevColIdC and prevValueC always move together and are one position.  The cells
    of mergeheap at and beyond hsize are dead between rows.  B.rowptr[inner + 1] is read once per loop where the code
    re-reads it; the inputs are const.  malloc never fails, and memory of the freed local arrays is not
    tracked.  The static_asserts (721-722) are resolved at compile time.  A team of numThreads threads is
    delivered where it is asked for (752). *)
From Coq Require Import NArith.
From Verif Require Import KernelBase HeapModel McaModel LegacyScanModel.
From Verif Require Export DriverModel.
From Verif Require Import Base Spec.

(** A thread's local output: colIdsLocalMem, valuesLocalMem and the cursors (765-768).  [None]: a value cell
    to which nothing was stored (my_malloc leaves NT() there, utility.h 109-147; the model lets nobody use it). *)
Record lbuf (V : Type) := mkLbuf { l_ids : list nat; l_vals : list (option V); l_pos : nat }.
Arguments mkLbuf {V} _ _ _.
Arguments l_ids {V} _.
Arguments l_vals {V} _.
Arguments l_pos {V} _.

(** What HeapSpGEMMImpl uses of a row algorithm: estimateResultSize, allocateAuxiliaryMemory, row (761, 770, 775).
    The last component of the result of [row] is what it stores to rowNvals[i] and adds to threadNvals;
    [None] if it returns without doing so. *)
Record halg (V : Type) := mkHalg {
  ha_aux : Type;
  ha_est : list nat -> csr V -> nat -> nat -> res nat;
  ha_alloc : csr V -> csr V -> nat -> nat -> res ha_aux;
  ha_row : csr V -> csr V -> csr V -> nat -> ha_aux -> lbuf V -> res (ha_aux * lbuf V * option nat) }.
Arguments mkHalg {V} _ _ _ _.
Arguments ha_aux {V} _.
Arguments ha_est {V} _ _ _ _ _.
Arguments ha_alloc {V} _ _ _ _ _.
Arguments ha_row {V} _ _ _ _ _ _ _.

Section Rows.
Context {V : Type} (mul add : V -> V -> V).

(** my_malloc(localsum + 1), cursors at the first cell: heap_mult_generic.h 765-768 *)
Definition lnew (n : nat) : lbuf V := mkLbuf (replicate (n + 1) 0) (replicate (n + 1) None) 0.

(** HeapBase::estimateResultSize, 66-69: std::accumulate with the initial value [0] adds up in an int, each sum being
    reduced to 32 bits; a negative int becomes an index type again (0xFFFF...), for which no memory can be had. *)
Definition heapEst (maxnnzc : list nat) (M : csr V) (rb re : nat) : res nat :=
  s <- for_ rb re (fun i s => f <- get maxnnzc i ;; Ok ((s + N.of_nat f) mod 2 ^ 32)%N) 0%N ;;
  if (s <? 2 ^ 31)%N then Ok (N.to_nat s) else Err OutOfBounds.

(** MaskedHeapBase::estimateResultSize, 203-210, and MCABase::estimateResultSize, 479-486 *)
Definition maskEst (maxnnzc : list nat) (M : csr V) (rb re : nat) : res nat :=
  for_ rb re (fun i s => f <- get maxnnzc i ;; lm <- rowLen M i ;; Ok (s + Nat.min f lm)) 0.

(** HeapBase::allocateAuxiliaryMemory, 72-81, and MaskedHeapBase's, 213-222 *)
Definition heapAlloc (A M : csr V) (rb re : nat) : res heap :=
  sz <- for_ rb re (fun i sz => la <- rowLen A i ;; Ok (if sz <? la then la else sz)) 0 ;;
  Ok (mkHeap [] sz 0).
(** MCABase::allocateAuxiliaryMemory, 489-497 *)
Definition flagsAlloc (A M : csr V) (rb re : nat) : res (list bool) :=
  sz <- for_ rb re (fun i sz => lm <- rowLen M i ;; Ok (if sz <? lm then lm else sz)) 0 ;;
  Ok (replicate sz false).

(** Add the product of an entry to the local output: 112-119, 168-175, 260-269, 332-341, 422-431; the state is
    currRowNvals and the local output. *)
Definition putL (A B : csr V) (e : hentry) (s : nat * lbuf V) : res (nat * lbuf V) :=
  let '(cnt, L) := s in
  a <- get (values A) (erunr e) ;;
  b <- get (values B) (eloc e) ;;
  same <- (if 0 <? cnt then k <- get (l_ids L) (l_pos L) ;; Ok (k =? ek e) else Ok false) ;;
  if same : bool then
    old <- getI (l_vals L) (l_pos L) ;;
    vs <- set_ (l_vals L) (l_pos L) (Some (add (mul a b) old)) ;;
    Ok (cnt, mkLbuf (l_ids L) vs (l_pos L))
  else
    vs <- set_ (l_vals L) (l_pos L + 1) (Some (mul a b)) ;;
    ids <- set_ (l_ids L) (l_pos L + 1) (ek e) ;;
    Ok (cnt + 1, mkLbuf ids vs (l_pos L + 1)).

(** One iteration of the loops that make the initial heap: 95-103, 150-158, 240-248 ([insp = 0]), 304-320 ([insp = 1]),
    380-410 (unbounded).  The entry is filled in at mergeheap[hsize] before it is known whether it stays. *)
Definition initG (insp : N) (A B M : csr V) (mb me j : nat) (h : heap) : res heap :=
  inner <- get (colids A) j ;;
  '(bb, be) <- row_bounds B inner ;;
  if be - bb =? 0 then Ok h
  else if length (hp h) <? hcap h then initStep insp A B M mb me j h else Err OutOfBounds.
(** The loop over the row of A, before make: 95-103, 150-158, 240-248, 304-320, 380-410 *)
Definition initAll (insp : N) (A B M : csr V) (i mb me : nat) (h : heap) : res heap :=
  '(ab, ae) <- row_bounds A i ;;
  for_ ab ae (initG insp A B M mb me) (h_clear h).

(** BasicHeap::row, 84-136 *)
Definition basicRow (A B M : csr V) (i : nat) (h : heap) (L : lbuf V) : res (heap * lbuf V * option nat) :=
  h <- initAll 0 A B M i 0 0 h ;;
  h <- h_make h ;;
  '(h, (cnt, L)) <- heapTail (putL A B) (heapFuel A B) A B M h (0, L) ;;
  Ok (h, L, Some cnt).

(** libstdc++ std::max_element (bits/stl_algo.h __max_element): position of the first entry to which no later
    one is greater, in the order of ent_lt.  heap_mult_generic.h 164. *)
Fixpoint maxFrom (l : list hentry) (pos best : nat) (x : hentry) : nat :=
  match l with
  | [] => best
  | y :: l' => if ent_lt x y then maxFrom l' (pos + 1) pos y else maxFrom l' (pos + 1) best x
  end.
(** std::max_element - mergeheap: heap_mult_generic.h 164 *)
Definition maxElement (l : list hentry) : nat := match l with [] => 0 | x :: l' => maxFrom l' 1 0 x end.

(** HeapLinear::row, the loop 163-192 *)
Fixpoint linLoop {S} (act : hentry -> S -> res S) (fuel thr : nat) (A B : csr V) (h : heap) (s : S) : res (heap * S) :=
  match fuel with
  | O => Err OutOfFuel
  | Datatypes.S fuel' =>
    if length (hp h) =? 0 then Ok (h, s)
    else
      let big := thr <? length (hp h) in
      let idx := if big then 0 else maxElement (hp h) in
      e <- get (hp h) idx ;;
      s <- act e s ;;
      inner <- get (colids A) (erunr e) ;;
      be <- get (rowptr B) (inner + 1) ;;
      h <- (if eloc e + 1 <? be then
              key <- get (colids B) (eloc e + 1) ;;
              l <- set_ (hp h) idx (mkEnt key (erunr e) (eloc e + 1)) ;;
              let h := mkHeap l (hcap h) (hmax h) in
              if big then h_sinkRoot h else Ok h
            else
              l <- set_ (hp h) idx (mkEnt (ek e) (erunr e) (eloc e + 1)) ;;
              let h := mkHeap l (hcap h) (hmax h) in
              if big then h_pop h
              else
                lst <- get (hp h) (length (hp h) - 1) ;;
                l <- set_ (hp h) idx lst ;;
                Ok (mkHeap (take (length l - 1) l) (hcap h) (hmax h))) ;;
      linLoop act fuel' thr A B h s
  end.

(** HeapLinear::row, 138-197 *)
Definition linearRow (thr : nat) (A B M : csr V) (i : nat) (h : heap) (L : lbuf V) : res (heap * lbuf V * option nat) :=
  h <- initAll 0 A B M i 0 0 h ;;
  h <- (if thr <? length (hp h) then h_make h else Ok h) ;;
  '(h, (cnt, L)) <- linLoop (putL A B) (heapFuel A B) thr A B h (0, L) ;;
  Ok (h, L, Some cnt).

(** MaskedHeap_v0::row, 226-286 ([insp = 0]); MaskedHeap_v1::row, 288-362 ([insp = 1]); MaskedHeap_v2::row,
    364-473 ([insp] = 2^64 - 1).  v1 and v2 return at once when the mask row is empty (299, 375). *)
Definition maskedHeapRow (insp : N) (A B M : csr V) (i : nat) (h : heap) (L : lbuf V) : res (heap * lbuf V * option nat) :=
  '(mb, me) <- row_bounds M i ;;
  if negb (insp =? 0)%N && (mb =? me) then Ok (h, L, None) else
  h <- initAll insp A B M i mb me h ;;
  h <- h_make h ;;
  '(h, (cnt, L)) <- heapLoop (putL A B) (heapFuel A B) insp A B M me mb h (0, L) ;;
  Ok (h, L, Some cnt).

(** std::fill(flags, flags + maskSize, false): 518, 590, 659 *)
Definition fillFlags (flags : list bool) (n : nat) : res (list bool) :=
  if n <=? length flags then Ok (replicate n false ++ drop n flags) else Err OutOfBounds.

(** A column found in both rows: 539-548, 609-618, 682-691; [base] is the cell prevValueC points to (516, 588, 657). *)
Definition flagMatch (A B : csr V) (base mb j maskIdx loc : nat) (s : list bool * list (option V))
  : res (list bool * list (option V)) :=
  let '(flags, vals) := s in
  let idx := maskIdx - mb in
  a <- get (values A) j ;;
  b <- get (values B) loc ;;
  f <- get flags idx ;;
  if (f : bool) then
    old <- getI vals (base + idx) ;;
    vals <- set_ vals (base + idx) (Some (add old (mul a b))) ;; Ok (flags, vals)
  else
    vals <- set_ vals (base + idx) (Some (mul a b)) ;;
    flags <- set_ flags idx true ;; Ok (flags, vals).

(** MCA_v2, the loops 602-622 over the mask row and over the columns below the mask column *)
Fixpoint mca2 {S} (fuel : nat) (B M : csr V) (be maskEnd : nat) (onMatch : nat -> nat -> S -> res S)
    (loc key maskIdx : nat) (s : S) : res S :=
  match fuel with
  | O => Err OutOfFuel
  | Datatypes.S fuel' =>
    if maskIdx <? maskEnd then
      m <- get (colids M) maskIdx ;;
      if key <? m then
        if loc + 1 <? be
        then key' <- get (colids B) (loc + 1) ;; mca2 fuel' B M be maskEnd onMatch (loc + 1) key' maskIdx s
        else Ok s
      else if key =? m then
        s' <- onMatch maskIdx loc s ;;
        if loc + 1 <? be
        then key' <- get (colids B) (loc + 1) ;; mca2 fuel' B M be maskEnd onMatch (loc + 1) key' (maskIdx + 1) s'
        else Ok s'
      else mca2 fuel' B M be maskEnd onMatch loc key (maskIdx + 1) s
    else Ok s
  end.

(** The body of the loop over A's row: 522-555 (MCA_v1), 594-625 (MCA_v2), 663-697 (MCA_v3).  MCA_v1 and MCA_v2 take the
    first key from A.colids (525, 597), before they know whether the row of B has entries.  MCA_v3 reads a key when it compares it;
    the model reads it when the iterator arrives there. *)
Definition mcaStep1 {S} (A B M : csr V) (mb me j : nat) (onMatch : nat -> nat -> S -> res S) (s : S) : res S :=
  inner <- get (colids A) j ;;
  '(bb, be) <- row_bounds B inner ;;
  key <- get (colids A) bb ;;
  if bb =? be then Ok s
  else mcaMerge ((be - bb) + length (colids M) + 1) B M be me onMatch bb key mb s.
(** MCA_v2: 594-625 *)
Definition mcaStep2 {S} (A B M : csr V) (mb me j : nat) (onMatch : nat -> nat -> S -> res S) (s : S) : res S :=
  inner <- get (colids A) j ;;
  '(bb, be) <- row_bounds B inner ;;
  key <- get (colids A) bb ;;
  if bb =? be then Ok s
  else mca2 ((be - bb) + length (colids M) + 2) B M be me onMatch bb key mb s.
(** MCA_v3: 663-697 *)
Definition mcaStep3 {S} (A B M : csr V) (mb me j : nat) (onMatch : nat -> nat -> S -> res S) (s : S) : res S :=
  inner <- get (colids A) j ;;
  '(bb, be) <- row_bounds B inner ;;
  if bb =? be then Ok s
  else
    key <- get (colids B) bb ;;
    mcaMerge ((be - bb) + length (colids M) + 1) B M be me onMatch bb key mb s.

(** The three classes MCA_v1, MCA_v2, MCA_v3: 502, 573, 644 *)
Inductive mcaVersion := MV1 | MV2 | MV3.

(** Compaction in place: 558-565, 628-635, 700-707 *)
Definition gatherL (M : csr V) (mb n base : nat) (flags : list bool) (ids : list nat) (vals : list (option V))
  : res (list nat * list (option V) * nat) :=
  for_ 0 n (fun src '(ids, vals, dst) =>
    f <- get flags src ;;
    if (f : bool) then
      c <- get (colids M) (mb + src) ;;
      ids <- set_ ids (base + dst) c ;;
      x <- getI vals (base + src) ;;
      vals <- set_ vals (base + dst) (Some x) ;;
      Ok (ids, vals, dst + 1)
    else Ok (ids, vals, dst)) (ids, vals, 0).

(** MCA_v1::row, 502-571; MCA_v2::row, 573-642; MCA_v3::row, 644-714.  The cursors end at base + dst - 1 (567-568; for
    dst = 0 the unsigned number dst - 1 wraps around and the cursor goes back by one). *)
Definition mcaRowG (v : mcaVersion) (A B M : csr V) (i : nat) (flags : list bool) (L : lbuf V) : res (list bool * lbuf V * option nat) :=
  '(mb, me) <- row_bounds M i ;;
  let base := l_pos L + 1 in
  flags <- fillFlags flags (me - mb) ;;
  '(ab, ae) <- row_bounds A i ;;
  '(flags, vals) <- for_ ab ae (fun j s =>
      let on := flagMatch A B base mb j in
      match v with
      | MV1 => mcaStep1 A B M mb me j on s
      | MV2 => mcaStep2 A B M mb me j on s
      | MV3 => mcaStep3 A B M mb me j on s
      end) (flags, l_vals L) ;;
  '(ids, vals, dst) <- gatherL M mb (me - mb) base flags (l_ids L) vals ;;
  Ok (flags, mkLbuf ids vals (l_pos L + dst), Some dst).

(** The row algorithms as HeapSpGEMMImpl sees them: heap_mult_generic.h 84, 138, 226, 288, 364, 502, 573, 644 *)
Definition basicAlg : halg V := mkHalg heap heapEst heapAlloc basicRow.
(** HeapLinear<threshold>: 138 *)
Definition linearAlg (thr : nat) : halg V := mkHalg heap heapEst heapAlloc (linearRow thr).
(** MaskedHeap_v0, _v1, _v2: 226, 288, 364 *)
Definition maskedHeapAlg (insp : N) : halg V := mkHalg heap maskEst heapAlloc (maskedHeapRow insp).
(** MCA_v1, MCA_v2, MCA_v3: 502, 573, 644 *)
Definition mcaAlgG (v : mcaVersion) : halg V := mkHalg (list bool) maskEst flagsAlloc (mcaRowG v).
End Rows.

Section Impl.
Context {V : Type}.
Notation store := (gmap nat (obj V)).
Notation mem := (gmap loc (val V)).
Notation tprog := (prog loc (val V)).

(** The entries that the copies of 802-803 read: cells 1 .. threadNvals of the local arrays *)
Definition localOut (L : lbuf V) (n : nat) : res (list (nat * V)) :=
  for_ 0 n (fun p l => c <- get (l_ids L) (p + 1) ;; v <- getI (l_vals L) (p + 1) ;; Ok (l ++ [(c, v)])) [].

(** [if (!C.isEmpty()) { C.make_empty(); } C.rows = A.rows; C.cols = B.cols;]: 730-732; CSR.h 52-66, 89.
    A matrix whose arrays are released is not looked at again before it is replaced. *)
Definition hResetC (iA iB iC : nat) (s : store) : res store :=
  C <- deref s iC ;;
  let s1 := if nnz C =? 0 then s else <[iC := OFresh 0 0 0]> s in
  A <- deref s1 iA ;;
  B <- deref s1 iB ;;
  Ok (<[iC := if nnz C =? 0 then OMat (mkCsr (rows A) (cols B) 0 (rowptr C) (colids C) (values C)) else OFresh (rows A) (cols B) 0]> s1).

(** C.rows and C.cols.  731-732, 783. *)
Definition dimsOf (e : store) (i : nat) : res (nat * nat) :=
  match e !! i with
  | Some (OMat X) => Ok (rows X, cols X)
  | Some (OFresh r c _) => Ok (r, c)
  | _ => Err OutOfBounds
  end.

Section Region.
Context (alg : halg V) (iA iB iM iC nt : nat) (flops cum : list nat) (total : nat).

(** One row: 774-776 *)
Definition rowH (A B M : csr V) (i : nat) (s : ha_aux alg * lbuf V * nat) : tprog (ha_aux alg * lbuf V * nat) :=
  let '(aux, L, n) := s in
  pbind (lift (ha_row alg A B M i aux L)) (fun '(aux, L, c) =>
  match c with
  | Some c => Wr (aNv, i) (VN c) (Ret (aux, L, n + c))
  | None => Ret (aux, L, n)
  end).

(** Up to the first barrier: 754-778.  What 802-803 will copy is read off the thread's own arrays here. *)
Definition numericH (e : store) (t : nat) : tprog t1 :=
  pbind (lift (deref e iA)) (fun A => pbind (lift (deref e iB)) (fun B => pbind (lift (deref e iM)) (fun M =>
  pbind (lift (distributeWork total cum (rows A) nt t)) (fun '(rb, re) =>
  pbind (lift (ha_est alg flops M rb re)) (fun localsum =>
  pbind (lift (ha_alloc alg A M rb re)) (fun aux =>
  pbind (pfor rb re (rowH A B M) (aux, lnew localsum, 0)) (fun '(_, L, n) =>
  Wr (aTn, t) (VN n) (pbind (lift (localOut L n)) (fun l => Ret (mkT1 rb re l)))))))))).

(** The master's block: 781-789; my_malloc fills the new index arrays with zeros (utility.h 109-147). *)
Definition masterH (e : store) (m : mem) : res (store * mem) :=
  '(nr, nc) <- dimsOf e iC ;;
  nn <- for_ 0 nt (fun t s => match m !! (aTn, t) with Some (VN x) => Ok (s + x) | Some _ => Err Uninit | None => Err OutOfBounds end) 0 ;;
  Ok (<[iC := OFresh nr nc nn]> e,
      cells aRp (replicate (nr + 1) (VN 0)) ∪ cells aCi (replicate nn (VN 0)) ∪ cells aVa (replicate nn VU) ∪ m).

(** After it: 791-803.  The sum of 791 is taken between the barriers; the model takes it after the second one, nothing
    writes threadsNvals in between.  [setRowOffsets] is that sum and 795-799, [copyValuesToC] is 802-803 (common.h has
    the same code). *)
Definition outputH (e : store) (t : nat) (s : t1) : tprog t1 :=
  pbind (lift (fresh_dims e iC)) (fun '(nrows, _) =>
  pbind (setRowOffsets nrows nt (t1_rb s) (t1_re s) t) (fun _ =>
  pbind (copyValuesToC (t1_rb s) (t1_out s) (length (t1_out s))) (fun _ => Ret s))).

(** 752-807 *)
Definition regionH : list (phase loc (val V) store t1) :=
  [PPar (fun e t _ => numericH e t); PMaster (fun _ e m => masterH e m); PPar outputH].
End Region.

(** rowNvals and threadsNvals, value-initialised: 741, 746 *)
Definition startMemH (nrows nt : nat) : mem := cells aNv (replicate nrows (VN 0)) ∪ cells aTn (replicate nt (VN 0)).

(** [HeapSpGEMMImpl(A, B, C, M, multop, addop, numThreads)], 716-812, on the objects [iA], [iB], [iC], [iM] of [s] always ends,
    with the objects as in [s'].  numThreads = 0 is replaced by the OpenMP default (724-728).  maxnnzc is filled by
    tmp::getFlop (14-30) in a parallel loop with a reduction; the sum is doubled there and halved in 736. *)
Definition HeapSpGEMMImpl_always (alg : halg V) (top nts iA iB iM iC nt : nat) (s s' : store) : Prop :=
  exists s1, hResetC iA iB iC s = Ok s1 /\
  exists A B, deref s1 iA = Ok A /\ deref s1 iB = Ok B /\
  exists flops total, parfor_always (flopsRow A B) (rows A) (replicate (rows A) (Some 0)) (Some <$> flops) total /\
  exists st cum, set_ (replicate (rows A) (Some 0)) 0 (Some 0) = Ok st /\
    lScan_always 0 Nat.add top flops (rows A) nts st (Some <$> cum) /\
  exists e m ss, region_always (regionH alg iA iB iM iC nt flops cum (total * 2 / 2)) s1 (startMemH (rows A) nt)
                   (replicate nt (mkT1 0 0 [])) e m ss /\
  exists C, outMatrix e m iC = Some C /\ s' = <[iC := OMat C]> e.

(** [HeapSpGEMM(A, B, C, multop, addop, numThreads)], 814-818: the mask is a new empty matrix, object [iM]. *)
Definition HeapSpGEMM_unmasked_always (alg : halg V) (top nts iA iB iM iC nt : nat) (s s' : store) : Prop :=
  exists s1, HeapSpGEMMImpl_always alg top nts iA iB iM iC nt (<[iM := OMat (mkCsr 0 0 0 [] [] [])]> s) s1 /\ s' = delete iM s1.
End Impl.
