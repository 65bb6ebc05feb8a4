(** Model of the heap-based row kernels: spgemm-blocks/heap/Heap.h,
    spgemm-blocks/heap/MaskedHeapAlgorithmInspect.h, spgemm-blocks/heap/MaskedHeapAlgorithm.h.
    The std:: heap algorithms are those of libstdc++ (bits/stl_heap.h). *)
From Verif Require Import Base Spec KernelBase.

(** Heap.h:9-25 EntryT *)
Record hentry := mkEnt { ek : nat; erunr : nat; eloc : nat }.

(** Heap.h:22 operator<: entries compare by key, reversed. *)
Definition ent_lt (a b : hentry) : bool := ek b <? ek a.

(** libstdc++ std::__push_heap(first, holeIndex, topIndex, value): sift the value up from the hole.
    [fuel] bounds the number of levels.  Called through Heap.h 92. *)
Fixpoint push_up (fuel : nat) (l : list hentry) (hole top : nat) (v : hentry) : res (list hentry) :=
  match fuel with
  | O => Err OutOfFuel
  | S fuel' =>
    if top <? hole then
      let parent := (hole - 1) / 2 in
      p <- get l parent ;;
      if ent_lt p v
      then l' <- set_ l hole p ;; push_up fuel' l' parent top v
      else set_ l hole v
    else set_ l hole v
  end.

(** libstdc++ std::__adjust_heap(first, holeIndex, len, value), first loop: move the better child up
    until the hole has fewer than two children.  In the code secondChild == holeIndex at the loop head.
    Called through Heap.h 82, 86, 91. *)
Fixpoint sift_down (fuel : nat) (l : list hentry) (hole len : nat) : res (list hentry * nat) :=
  match fuel with
  | O => Err OutOfFuel
  | S fuel' =>
    if hole <? (len - 1) / 2 then
      let sc := 2 * (hole + 1) in
      a <- get l sc ;;
      b <- get l (sc - 1) ;;
      let c := if ent_lt a b then sc - 1 else sc in
      e <- get l c ;;
      l' <- set_ l hole e ;;
      sift_down fuel' l' c len
    else Ok (l, hole)
  end.

(** libstdc++ std::__adjust_heap(first, holeIndex, len, value): then the single-child step, then
    __push_heap.  Called through Heap.h 82, 86, 91. *)
Definition adjust_heap (l : list hentry) (top len : nat) (v : hentry) : res (list hentry) :=
  '(l, hole) <- sift_down (len + 1) l top len ;;
  '(l, hole) <- (if (len mod 2 =? 0) && (hole =? (len - 2) / 2)
                 then e <- get l (2 * (hole + 1) - 1) ;; l' <- set_ l hole e ;; Ok (l', 2 * (hole + 1) - 1)
                 else Ok (l, hole)) ;;
  push_up (hole + 1) l hole top v.

(** libstdc++ std::__make_heap: [for parent = (len-2)/2 downto 0]; the counter is parent+1. *)
Fixpoint make_loop (n : nat) (l : list hentry) (len : nat) : res (list hentry) :=
  match n with
  | O => Ok l
  | S parent => v <- get l parent ;; l' <- adjust_heap l parent len v ;; make_loop parent l' len
  end.
(** std::make_heap, called in Heap.h 82 *)
Definition make_heap (l : list hentry) : res (list hentry) :=
  if length l <? 2 then Ok l else make_loop ((length l - 2) / 2 + 1) l (length l).

(** libstdc++ std::pop_heap: the old first element goes to the last position, the rest is a heap.
    Called in Heap.h 86, 91. *)
Definition pop_heap (l : list hentry) : res (list hentry) :=
  if 1 <? length l then
    let n := length l - 1 in
    v <- get l n ;;
    r <- get l 0 ;;
    l' <- set_ l n r ;;
    adjust_heap l' 0 n v
  else Ok l.

(** libstdc++ std::push_heap.  Called in Heap.h 92. *)
Definition push_heap (l : list hentry) : res (list hentry) :=
  let n := length l - 1 in
  v <- get l n ;; push_up (n + 1) l n 0 v.

(** Heap.h:28-33: [hp] holds the cells [0, _size) of _entries (the cells from _size on are dead: no
    function reads them), [hcap] is _capacity, [hmax] is _maxSize. *)
Record heap := mkHeap { hp : list hentry; hcap : nat; hmax : nat }.

(** Heap.h:67-72 append *)
Definition h_append (h : heap) (e : hentry) : res heap :=
  if length (hp h) <? hcap h then Ok (mkHeap (hp h ++ [e]) (hcap h) (hmax h)) else Err OutOfBounds.
(** Heap.h:76 top *)
Definition h_top (h : heap) : res hentry := get (hp h) 0.
(** Heap.h:78 clear *)
Definition h_clear (h : heap) : heap := mkHeap [] (hcap h) (hmax h).
(** Heap.h:80-83 make *)
Definition h_make (h : heap) : res heap :=
  l <- make_heap (hp h) ;;
  Ok (mkHeap l (hcap h) (if hmax h <? length (hp h) then length (hp h) else hmax h)).
(** Heap.h:85-88 pop *)
Definition h_pop (h : heap) : res heap :=
  l <- pop_heap (hp h) ;; Ok (mkHeap (take (length l - 1) l) (hcap h) (hmax h)).
(** Heap.h:90-93 sinkRoot *)
Definition h_sinkRoot (h : heap) : res heap :=
  l <- pop_heap (hp h) ;; l <- push_heap l ;; Ok (mkHeap l (hcap h) (hmax h)).
(** Assignment to the fields of the root through [auto &hentry = _heap.top()].
    Heap.h 75; MaskedHeapAlgorithmInspect.h 28-165. *)
Definition h_setRoot (h : heap) (e : hentry) : res heap :=
  l <- set_ (hp h) 0 e ;; Ok (mkHeap l (hcap h) (hmax h)).

Section HeapKernels.
Context {V : Type} (mul add : V -> V -> V).

(** numeric_limits<IT>::max(), the initial prevKey (MaskedHeapAlgorithmInspect.h:39,71,307,349). *)
Variable itmax : nat.

(** MaskedHeapAlgorithmInspect.h:129-139, 151-164 (initHeap) and 210-228, 248-267 (insertNext): the
    merge of B's row with the mask row.  [Some (key, loc, true)]: keep the entry, [false]: drop it.
    The unbounded case (Inspect = size_t max) is the bounded one with maskStop = maskEnd: line 134
    breaks without appending where line 156-158 tests maskIdx != maskEnd, which is then false. *)
Fixpoint search (fuel : nat) (B M : csr V) (be maskStop maskEnd key loc maskIdx : nat)
  : res (nat * nat * bool) :=
  match fuel with
  | O => Err OutOfFuel
  | S fuel' =>
    m <- get (colids M) maskIdx ;;
    if key <? m then
      if be <=? loc + 1 then Ok (key, loc + 1, false)
      else key' <- get (colids B) (loc + 1) ;; search fuel' B M be maskStop maskEnd key' (loc + 1) maskIdx
    else if m <? key then
      if maskIdx + 1 =? maskStop then Ok (key, loc, negb (maskIdx + 1 =? maskEnd))
      else search fuel' B M be maskStop maskEnd key loc (maskIdx + 1)
    else Ok (key, loc, true)
  end.

(** std::min<std::size_t>(maskIdx + Inspect, maskEnd) in 64-bit arithmetic (:146, :233);
    maskEnd itself for the unbounded case. *)
Definition maskStopOf (insp : N) (maskIdx maskEnd : nat) : nat :=
  if (insp =? 2 ^ 64 - 1)%N then maskEnd
  else N.to_nat (N.min ((N.of_nat maskIdx + insp) mod 2 ^ 64) (N.of_nat maskEnd)).

(** MaskedHeapAlgorithmInspect.h:119: skip B entries below the current mask column, but never the
    last one. *)
Fixpoint skip_init (fuel : nat) (B M : csr V) (be key loc maskIdx : nat) : res (nat * nat) :=
  match fuel with
  | O => Err OutOfFuel
  | S fuel' =>
    m <- get (colids M) maskIdx ;;
    if (key <? m) && (loc + 1 <? be)
    then key' <- get (colids B) (loc + 1) ;; skip_init fuel' B M be key' (loc + 1) maskIdx
    else Ok (key, loc)
  end.

(** MaskedHeapAlgorithmInspect.h:191-194: advance while below the current mask column. *)
Fixpoint skip_next (fuel : nat) (B M : csr V) (be key loc maskIdx : nat) : res (nat * nat) :=
  match fuel with
  | O => Err OutOfFuel
  | S fuel' =>
    if loc + 1 <? be then
      key' <- get (colids B) (loc + 1) ;;
      m <- get (colids M) maskIdx ;;
      if m <=? key' then Ok (key', loc + 1) else skip_next fuel' B M be key' (loc + 1) maskIdx
    else Ok (key, loc + 1)
  end.

(** MaskedHeapAlgorithmInspect.h:103-169: one iteration of initHeap.  v0: MaskedHeapAlgorithm.h:102-110
    (Inspect = 0), v1: 220-234 (Inspect = 1), v2: 351-380 (unbounded). *)
Definition initStep (insp : N) (A B M : csr V) (maskIdx maskEnd j : nat) (h : heap) : res heap :=
  inner <- get (colids A) j ;;
  '(bb, be) <- row_bounds B inner ;;
  if be - bb =? 0 then Ok h
  else
    key <- get (colids B) bb ;;
    if (insp =? 0)%N then h_append h (mkEnt key j bb)
    else if (insp =? 1)%N then
      '(key, loc) <- skip_init (be - bb + 1) B M be key bb maskIdx ;;
      if loc <? be then h_append h (mkEnt key j loc) else Ok h
    else
      '(key, loc, keep) <- search ((be - bb) + (maskEnd - maskIdx) + 1) B M be (maskStopOf insp maskIdx maskEnd) maskEnd key bb maskIdx ;;
      if keep : bool then h_append h (mkEnt key j loc) else Ok h.

(** MaskedHeapAlgorithmInspect.h:101-172 initHeap *)
Definition initHeap (insp : N) (A B M : csr V) (row maskIdx maskEnd : nat) (h : heap) : res heap :=
  '(ab, ae) <- row_bounds A row ;;
  h <- for_ ab ae (initStep insp A B M maskIdx maskEnd) h ;;
  h_make h.

(** MaskedHeapAlgorithmInspect.h:174-271 insertNext.  v0: MaskedHeapAlgorithm.h:115-124, v1: 239-254,
    v2: 385-417. *)
Definition insertNext (insp : N) (A B M : csr V) (maskIdx maskEnd : nat) (e : hentry) (h : heap) : res heap :=
  inner <- get (colids A) (erunr e) ;;
  be <- get (rowptr B) (inner + 1) ;;
  '(e', keep) <-
    (if (insp =? 0)%N then
       if eloc e + 1 <? be
       then key <- get (colids B) (eloc e + 1) ;; Ok (mkEnt key (erunr e) (eloc e + 1), true)
       else Ok (mkEnt (ek e) (erunr e) (eloc e + 1), false)
     else if (insp =? 1)%N then
       '(key, loc) <- skip_next (be - eloc e + 1) B M be (ek e) (eloc e) maskIdx ;;
       Ok (mkEnt key (erunr e) loc, loc <? be)
     else
       if be <=? eloc e + 1 then Ok (mkEnt (ek e) (erunr e) (eloc e + 1), false)
       else
         key <- get (colids B) (eloc e + 1) ;;
         '(key, loc, keep) <- search ((be - eloc e) + (maskEnd - maskIdx) + 1) B M be (maskStopOf insp maskIdx maskEnd) maskEnd key (eloc e + 1) maskIdx ;;
         Ok (mkEnt key (erunr e) loc, keep)) ;;
  h <- h_setRoot h e' ;;
  if keep : bool then h_sinkRoot h else h_pop h.

(** MaskedHeapAlgorithmInspect.h:44,77,314,355: advance the mask position. *)
Fixpoint adv_mask (fuel : nat) (M : csr V) (key maskIdx maskEnd : nat) : res nat :=
  match fuel with
  | O => Err OutOfFuel
  | S fuel' =>
    if maskIdx <? maskEnd then
      m <- get (colids M) maskIdx ;;
      if m <? key then adv_mask fuel' M key (maskIdx + 1) maskEnd else Ok maskIdx
    else Ok maskIdx
  end.

(** [*currValue = addop(value, *currValue)] after [--currValue] (:72,88): the cell behind the cursor is
    the last one written.  Simplification: the two pointers move together. *)
Definition upd_last (o : out V) (x : V) : res (out V) :=
  match last (o_done o) with
  | Some (c, v) => Ok (mkOut (take (length (o_done o) - 1) (o_done o) ++ [(c, add x v)]) (o_cap o))
  | None => Err OutOfBounds
  end.

(** :84-93, :358-368, :376-385: add the product of the root to the output. *)
Definition put (A B : csr V) (e : hentry) (po : nat * out V) : res (nat * out V) :=
  let '(prevKey, o) := po in
  a <- get (values A) (erunr e) ;;
  b <- get (values B) (eloc e) ;;
  if prevKey =? ek e then o' <- upd_last o (mul a b) ;; Ok (prevKey, o')
  else o' <- emit o (ek e) (mul a b) ;; Ok (ek e, o').

(** :50-53, :317-320, :328-331: count a new column. *)
Definition bump (e : hentry) (pn : nat * nat) : res (nat * nat) :=
  let '(prevKey, n) := pn in
  if prevKey =? ek e then Ok (prevKey, n) else Ok (ek e, n + 1).

Section Loops.
Context {S : Type} (act : hentry -> S -> res S).
(** :41-56 and :74-97: the while loop of the plain-mask kernel. *)
Fixpoint heapLoop (fuel : nat) (insp : N) (A B M : csr V) (maskEnd maskIdx : nat) (h : heap) (s : S) : res (heap * S) :=
  match fuel with
  | O => Err OutOfFuel
  | Datatypes.S fuel' =>
    if length (hp h) =? 0 then Ok (h, s)
    else
      e <- h_top h ;;
      maskIdx <- adv_mask (maskEnd - maskIdx + 1) M (ek e) maskIdx maskEnd ;;
      if maskEnd <=? maskIdx then Ok (h_clear h, s)
      else
        m <- get (colids M) maskIdx ;;
        s <- (if ek e =? m then act e s else Ok s) ;;
        h <- insertNext insp A B M maskIdx maskEnd e h ;;
        heapLoop fuel' insp A B M maskEnd maskIdx h s
  end.

(** :311-323 and :352-372: first while loop of the complemented kernel. *)
Fixpoint heapLoopC (fuel : nat) (A B M : csr V) (maskEnd maskIdx : nat) (h : heap) (s : S) : res (heap * S) :=
  match fuel with
  | O => Err OutOfFuel
  | Datatypes.S fuel' =>
    if length (hp h) =? 0 then Ok (h, s)
    else
      e <- h_top h ;;
      maskIdx <- adv_mask (maskEnd - maskIdx + 1) M (ek e) maskIdx maskEnd ;;
      if maskEnd <=? maskIdx then Ok (h, s)
      else
        m <- get (colids M) maskIdx ;;
        s <- (if ek e =? m then Ok s else act e s) ;;
        h <- insertNext 0 A B M maskIdx maskEnd e h ;;
        heapLoopC fuel' A B M maskEnd maskIdx h s
  end.

(** :325-334 and :374-388: second while loop of the complemented kernel (mask exhausted). *)
Fixpoint heapTail (fuel : nat) (A B M : csr V) (h : heap) (s : S) : res (heap * S) :=
  match fuel with
  | O => Err OutOfFuel
  | Datatypes.S fuel' =>
    if length (hp h) =? 0 then Ok (h, s)
    else
      e <- h_top h ;;
      s <- act e s ;;
      h <- insertNext 0 A B M 0 0 e h ;;
      heapTail fuel' A B M h s
  end.
End Loops.

(** Bound on the number of iterations of the while loops: at most one per product of the row.
    MaskedHeapAlgorithmInspect.h 28-165. *)
Definition heapFuel (A B : csr V) : nat := nnz A * nnz B + 1.

(** MaskedHeapAlgorithmInspect.h:28-59 MaskedHeap::symbolicRow.  Old: MaskedHeapAlgorithm.h:27-58,147-177,277-307. *)
Definition heapSymbolicRow (insp : N) (A B M : csr V) (row : nat) (h : heap) : res (heap * nat) :=
  '(mb, me) <- row_bounds M row ;;
  _ <- assert_ (negb (mb =? me)) ;;
  h <- initHeap insp A B M row mb me h ;;
  '(h, pn) <- heapLoop bump (heapFuel A B) insp A B M me mb h (itmax, 0) ;;
  Ok (h, snd pn).

(** MaskedHeapAlgorithmInspect.h:61-99 MaskedHeap::numericRow.  Old: MaskedHeapAlgorithm.h:60-99,179-217,309-347. *)
Definition heapNumericRow (insp : N) (A B M : csr V) (row : nat) (h : heap) (o : out V) : res (heap * out V) :=
  '(mb, me) <- row_bounds M row ;;
  _ <- assert_ (negb (mb =? me)) ;;
  h <- initHeap insp A B M row mb me h ;;
  '(h, po) <- heapLoop (put A B) (heapFuel A B) insp A B M me mb h (itmax, o) ;;
  Ok (h, snd po).

(** MaskedHeapAlgorithmInspect.h:296-337 MaskedHeapComplemented::symbolicRow; its initHeap (:393-405)
    and insertNext (:407-416) are the Inspect = 0 versions. *)
Definition heapSymbolicRowC (A B M : csr V) (row : nat) (h : heap) : res (heap * nat) :=
  '(mb, me) <- row_bounds M row ;;
  _ <- assert_ (negb (mb =? me)) ;;
  h <- initHeap 0 A B M row mb me h ;;
  '(h, pn) <- heapLoopC bump (heapFuel A B) A B M me mb h (itmax, 0) ;;
  '(h, pn) <- heapTail bump (heapFuel A B) A B M h pn ;;
  Ok (h, snd pn).

(** MaskedHeapAlgorithmInspect.h:339-391 MaskedHeapComplemented::numericRow. *)
Definition heapNumericRowC (A B M : csr V) (row : nat) (h : heap) (o : out V) : res (heap * out V) :=
  '(mb, me) <- row_bounds M row ;;
  _ <- assert_ (negb (mb =? me)) ;;
  h <- initHeap 0 A B M row mb me h ;;
  '(h, po) <- heapLoopC (put A B) (heapFuel A B) A B M me mb h (itmax, o) ;;
  '(h, po) <- heapTail (put A B) (heapFuel A B) A B M h po ;;
  Ok (h, snd po).
End HeapKernels.

(** Heap.h:36,50-57: the heap after construction and setBuffer. *)
Definition heap_clean (cap mx : nat) : heap := mkHeap [] cap mx.
