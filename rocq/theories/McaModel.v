(** Model of the mask-compressed accumulator and its row kernels:
    spgemm-blocks/mca/MaskCompressedAccumulator.h, spgemm-blocks/mca/MCAAlgorithm.h. *)
From Verif Require Import Base Spec KernelBase MsaModel.

(** MaskCompressedAccumulator.h:27-29 EMPTY = 0xFF, ALLOWED = 0, INITIALIZED = 1 *)
Definition M_EMPTY : sbyte := FF.
(** ALLOWED: MaskCompressedAccumulator.h 28 *)
Definition M_ALLOWED : sbyte := B0.
(** INITIALIZED: MaskCompressedAccumulator.h 29 *)
Definition M_INITIALIZED : sbyte := B1.

(** MaskCompressedAccumulator.h:7-16,33 the entries array; [None] is a value cell that holds no value.
    The symbolic accumulator (ValueT = void) uses [unit]-free entries whose value part is [None]. *)
Notation mca V := (list (sbyte * option V)).

Section Mca.
Context {V S : Type}.

(** MaskCompressedAccumulator.h:72-75 operator[] *)
Definition mca_get (acc : mca V) (idx : nat) : res (sbyte * option V) :=
  _ <- assert_ (idx <? length acc) ;; get acc idx.
(** A store through operator[]: MaskCompressedAccumulator.h 72-75 *)
Definition mca_set (acc : mca V) (idx : nat) (e : sbyte * option V) : res (mca V) :=
  _ <- assert_ (idx <? length acc) ;; set_ acc idx e.

(** MaskCompressedAccumulator.h:98-100 clearAll(nelems) *)
Definition mca_clearAll (acc : mca V) (nelems : nat) : res (mca V) :=
  if nelems <=? length acc then Ok (repeat (FF, None) nelems ++ drop nelems acc) else Err OutOfBounds.

(** MCAAlgorithm.h:61-78 and 106-128: the [while (true)] merge of B's row with the mask row;
    [onMatch maskIdx loc] is lines 67-73 / 112-123.  [fuel] bounds the number of iterations;
    running out of fuel is reported, never silently accepted.
    Simplification: B.rowptr[inner+1] is read once ([be]); the array is const in the kernel. *)
Fixpoint mcaMerge (fuel : nat) (B M : csr V) (be maskEnd : nat)
    (onMatch : nat -> nat -> S -> res S) (loc key maskIdx : nat) (s : S) : res S :=
  match fuel with
  | O => Err OutOfFuel
  | Datatypes.S fuel' =>
    m <- get (colids M) maskIdx ;;
    if key <? m then
      if loc + 1 <? be
      then key' <- get (colids B) (loc + 1) ;; mcaMerge fuel' B M be maskEnd onMatch (loc + 1) key' maskIdx s
      else Ok s
    else if m <? key then
      if maskIdx + 1 =? maskEnd then Ok s
      else mcaMerge fuel' B M be maskEnd onMatch loc key (maskIdx + 1) s
    else
      s' <- onMatch maskIdx loc s ;;
      if loc + 1 <? be
      then key' <- get (colids B) (loc + 1) ;;
           if maskIdx + 1 =? maskEnd then Ok s'
           else mcaMerge fuel' B M be maskEnd onMatch (loc + 1) key' (maskIdx + 1) s'
      else Ok s'
  end.

(** MCAAlgorithm.h:52-79 and 97-129: the loop over A's row around the merge. *)
Definition mcaLoop (A B M : csr V) (row maskBegin maskEnd : nat)
    (onMatch : nat -> nat -> nat -> S -> res S) (s : S) : res S :=
  '(ab, ae) <- row_bounds A row ;;
  for_ ab ae (fun j s =>
    inner <- get (colids A) j ;;
    '(bb, be) <- row_bounds B inner ;;
    if bb =? be then Ok s
    else
      key <- get (colids B) bb ;;
      mcaMerge ((be - bb) + length (colids M) + 1) B M be maskEnd (onMatch j) bb key maskBegin s) s.
End Mca.

Section McaRows.
Context {V : Type} (mul add : V -> V -> V).

(** MCAAlgorithm.h:43-85 symbolicRow; returns the value stored in rowNvals[row]. *)
Definition mcaSymbolicRow (A B M : csr V) (row : nat) (acc : mca V) : res (mca V * nat) :=
  '(mb, me) <- row_bounds M row ;;
  '(acc, n) <- mcaLoop A B M row mb me (fun j maskIdx loc '(acc, n) =>
      let idx := maskIdx - mb in
      e <- mca_get acc idx ;;
      if bool_decide (fst e = M_EMPTY)
      then acc' <- mca_set acc idx (M_ALLOWED, snd e) ;; Ok (acc', n + 1)
      else Ok (acc, n)) (acc, 0) ;;
  acc <- mca_clearAll acc (me - mb) ;;
  Ok (acc, n).

(** MCAAlgorithm.h:112-123 *)
Definition mcaMatch (A B : csr V) (mb j maskIdx loc : nat) (acc : mca V) : res (mca V) :=
  let idx := maskIdx - mb in
  a <- get (values A) j ;;
  b <- get (values B) loc ;;
  e <- mca_get acc idx ;;
  if bool_decide (fst e = M_INITIALIZED) then
    match snd e with
    | Some v => mca_set acc idx (fst e, Some (add v (mul a b)))
    | None => Err Uninit
    end
  else mca_set acc idx (M_INITIALIZED, Some (mul a b)).

(** MCAAlgorithm.h:132-139: compaction of the accumulator into the output. *)
Definition mcaGather (M : csr V) (row maskSize : nat) (acc : mca V) (o : out V) : res (out V) :=
  for_ 0 maskSize (fun i o =>
    e <- mca_get acc i ;;
    if bool_decide (fst e = M_INITIALIZED) then
      b <- get (rowptr M) row ;;
      c <- get (colids M) (b + i) ;;
      match snd e with Some v => emit o c v | None => Err Uninit end
    else Ok o) o.

(** MCAAlgorithm.h:87-141 numericRow *)
Definition mcaNumericRow (A B M : csr V) (row : nat) (acc : mca V) (o : out V) : res (mca V * out V) :=
  '(mb, me) <- row_bounds M row ;;
  acc <- mcaLoop A B M row mb me (fun j maskIdx loc acc => mcaMatch A B mb j maskIdx loc acc) acc ;;
  o <- mcaGather M row (me - mb) acc o ;;
  acc <- mca_clearAll acc (me - mb) ;;
  Ok (acc, o).
End McaRows.

(** MaskCompressedAccumulator.h:52-58 setBuffer: all bytes 0xFF. *)
Definition mca_clean {V} (n : nat) : mca V := repeat (FF, None) n.
