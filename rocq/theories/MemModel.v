(** Model of the scratch memory handling: spgemm-blocks/util.h and the setBuffer / releaseBuffer /
    getMemoryRequirement functions of the accumulators.

    Bytes are modelled by what matters to the code: whether a byte is 0xFF ([true]) or anything else
    ([false]).  Sizes and addresses are [N]; size_t arithmetic is modulo 2^64. *)
From Coq Require Import NArith.
From Verif Require Import Base Spec MsaModel McaModel HashModel HeapModel.
Local Open Scope N_scope.

(** size_t is 64 bits wide (x86-64, as everywhere in the repository) *)
Definition SZ : N := 2 ^ 64.
(** + of size_t: util.h 9-60 *)
Definition wadd (a b : N) : N := (a + b) mod SZ.
(** - of size_t: util.h 9-60 *)
Definition wsub (a b : N) : N := (a + (SZ - b mod SZ)) mod SZ.
(** * of size_t: util.h 9-60; Heap.h 47 *)
Definition wmul (a b : N) : N := (a * b) mod SZ.

(** util.h:9-13 isAligned *)
Definition isAligned (addr alignment : N) : bool := addr mod alignment =? 0.

(** util.h:43-47 roundUp<div> *)
Definition roundUp (d n : N) : N :=
  let r := n mod d in if r =? 0 then n else wadd n (wsub d r).
(** util.h:49-52 roundDown<div> *)
Definition roundDown (d n : N) : N := wsub n (n mod d).

(** util.h:20-33 mallocAligned: [base] is the address returned by malloc for a request of
    [maReq] bytes.  Result: the returned pointer, the address of the size_t header and the value stored
    there.  A null result of malloc is not modelled (the code does not check it either).
    The header is written through a size_t*, so a header address that is not a multiple of 8 is a
    misaligned access: [maHeader]. *)
Definition maReq (nbytes alignment : N) : N := wadd (wadd alignment 8) nbytes.
(** The distance of the returned pointer from what malloc gave: util.h 22-28 *)
Definition maShift (base alignment : N) : N :=
  let rem := (base + 8) mod alignment in
  wadd 8 (if rem =? 0 then 0 else wsub alignment rem).
(** The returned pointer: util.h 28 *)
Definition maPtr (base alignment : N) : N := base + maShift base alignment.
(** util.h:30 the store through reinterpret_cast<size_t *>(mem - sizeof(size_t)); memory outside the
    header is irrelevant to freeAligned, so the heap is a partial map from header address to value. *)
Definition mallocAligned (base alignment : N) (hdr : N -> option N) : res (N * (N -> option N)) :=
  let p := maPtr base alignment in
  if isAligned (wsub p 8) 8
  then Ok (p, fun a => if a =? wsub p 8 then Some (maShift base alignment) else hdr a)
  else Err Misaligned.
(** util.h:35-41 freeAligned: the address handed to std::free *)
Definition freeAligned (ptr : N) (hdr : N -> option N) : res N :=
  if isAligned (wsub ptr 8) 8
  then match hdr (wsub ptr 8) with Some s => Ok (wsub ptr s) | None => Err Uninit end
  else Err Misaligned.

(** The thread's scratch buffer (masked-spgemm.h:57-59,139-141): address, size, the declared dirty
    size, and which bytes are 0xFF. *)
Record buf := mkBuf { b_addr : N; b_size : N; b_dirty : N; b_ff : N -> bool }.

(** util.h:71 memset(mem + from, 0xFF, len); a range outside the buffer is a fault. *)
Definition memsetFF (b : buf) (from len : N) : res buf :=
  if from + len <=? b_size b
  then Ok (mkBuf (b_addr b) (b_size b) (b_dirty b)
             (fun i => if (from <=? i) && (i <? from + len) then true else b_ff b i))
  else Err OutOfBounds.

(** util.h:54-82 splitMemory<DirtyT, CleanT>; [sD], [sC] are the sizes of DirtyT and CleanT, [nD], [nC]
    the object counts.  The dirty objects start at offset 0; the result is the buffer (with the
    updated dirtyMemSize) and the offset of the clean objects. *)
Definition splitMemory (sD sC nD nC : N) (b : buf) : res (buf * N) :=
  let dirtyObjsMemSize := wmul sD nD in
  let cleanObjsMemSize := wmul sC nC in
  let memSize := roundDown sC (b_size b) in
  let usedMem := roundUp sC (N.max (b_dirty b) dirtyObjsMemSize) in
  '(b, usedMem) <-
    (if (memSize <? usedMem) || (wsub memSize usedMem <? cleanObjsMemSize) then
       _ <- assert_ (dirtyObjsMemSize <? b_dirty b) ;;
       let toClean := wsub cleanObjsMemSize (wsub memSize (b_dirty b)) in
       let toClean := wadd toClean (wsub (b_dirty b) toClean mod sC) in
       _ <- assert_ (toClean <=? b_dirty b) ;;
       b' <- memsetFF b (wsub (b_dirty b) toClean) toClean ;;
       Ok (mkBuf (b_addr b') (b_size b') (wsub (b_dirty b) toClean) (b_ff b'), wsub (b_dirty b) toClean)
     else Ok (b, usedMem)) ;;
  _ <- assert_ (sD * nD <=? usedMem) ;;
  _ <- assert_ (usedMem + sC * nC <=? memSize) ;;
  Ok (b, usedMem).

(** util.h:84-88 getCleanMemory: splitMemory with DirtyT = std::byte and no dirty object *)
Definition getCleanMemory (sC nC : N) (b : buf) : res (buf * N) := splitMemory 1 sC 0 nC b.

(** All bytes of [off, off+len) are 0xFF. *)
Definition allFF (f : N -> bool) (off len : N) : bool :=
  forallb (fun i => f (off + N.of_nat i)) (seq 0 (N.to_nat len)).
(** Handing a region to an accumulator that relies on it being clean.  The typed accumulators of
    MsaModel, HashModel and McaModel start with every state / key in its 0xFF default; a region that
    holds any other byte is reported as a fault at the hand-over.  (In the code the stale byte would
    be read as a state or key later.) *)
Definition needFF (f : N -> bool) (off len : N) : res unit :=
  if allFF f off len then Ok tt else Err Uninit.

(** Bytes after an accumulator has worked on an array of [n] entries of [sz] bytes at offset [off]:
    an entry whose fields all hold no stored value keeps its bytes, any other entry is taken to be
    non-0xFF throughout (a stored value may happen to consist of 0xFF bytes; the pessimistic reading
    is the one that matters for the promise). *)
Definition dirtied (off sz : N) (n : nat) (clean : nat -> bool) (f : N -> bool) : N -> bool :=
  fun i => if (off <=? i) && (i <? off + sz * N.of_nat n)
           then f i && clean (N.to_nat ((i - off) / sz)) else f i.

(** A typed accumulator together with the buffer it lives in: buffer as left by setBuffer (its
    [b_dirty] is the member _dirty) and offset of the clean array.  1A.h 46-52; Heap.h 29-33. *)
Record placed (T : Type) := mkPlaced { p_acc : T; p_buf : buf; p_off : N }.
Arguments mkPlaced {T} _ _ _.
Arguments p_acc {T} _.
Arguments p_buf {T} _.
Arguments p_off {T} _.

Section Accs.
Context {V : Type}.

(** ** One-array MSA: MaskedSparseAccumulator1A.h.  [sz] is sizeof(EntryT): 1 for ValueT = void. *)
(** 1A.h:63-65 getMemoryRequirement *)
Definition msa1_req (sz : N) (n : nat) : N * N := (wmul (N.of_nat n) sz, sz).
(** 1A.h:67-73 setBuffer; [hasv] is false for ValueT = void *)
Definition msa1_set (hasv : bool) (sz : N) (n : nat) (b : buf) : res (placed (msa V)) :=
  _ <- assert_ (isAligned (b_addr b) sz) ;;
  _ <- assert_ (wmul (N.of_nat n) sz <=? b_size b) ;;
  '(b, off) <- getCleanMemory sz (N.of_nat n) b ;;
  _ <- needFF (b_ff b) off (sz * N.of_nat n) ;;
  Ok (mkPlaced (if hasv then msa_clean n else msa_clean_sym n) b off).
(** entry [i] of the array holds no stored state or value.  1A.h 67-80. *)
Definition msa_entry_clean (a : msa V) (i : nat) : bool :=
  bool_decide (st a !! i = Some FF) && match vl a !! i with Some (Some _) => false | _ => true end.
(** 1A.h:75-80 releaseBuffer *)
Definition msa1_rel (sz : N) (p : placed (msa V)) : buf :=
  mkBuf (b_addr (p_buf p)) (b_size (p_buf p)) (b_dirty (p_buf p))
    (dirtied (p_off p) sz (length (st (p_acc p))) (msa_entry_clean (p_acc p)) (b_ff (p_buf p))).

(** ** Two-array MSA: MaskedSparseAccumulator2A.h.  [sV] is sizeof(ValueT), sizeof(StateT) = 1. *)
(** 2A.h:61-67 getMemoryRequirement *)
Definition msa2_req (hasv : bool) (sV : N) (n : nat) : N * N :=
  if hasv then (wmul (N.of_nat n) (wadd 1 sV), N.lcm 1 sV) else (wmul (N.of_nat n) 1, 1).
(** 2A.h:69-84 setBuffer *)
Definition msa2_set (hasv : bool) (sV : N) (n : nat) (b : buf) : res (placed (msa V)) :=
  _ <- assert_ (isAligned (b_addr b) (snd (msa2_req hasv sV n))) ;;
  _ <- assert_ (fst (msa2_req hasv sV n) <=? b_size b) ;;
  '(b, off) <- (if hasv then splitMemory sV 1 (N.of_nat n) (N.of_nat n) b
                else getCleanMemory 1 (N.of_nat n) b) ;;
  _ <- needFF (b_ff b) off (1 * N.of_nat n) ;;
  Ok (mkPlaced (if hasv then msa_clean n else msa_clean_sym n) b off).
(** 2A.h:86-97 releaseBuffer: returns _dirty.  [_values[i]] keeps its bytes when no value is stored
    (clear() fills it with 0xFF again, 2A.h:147). *)
Definition msa2_rel (hasv : bool) (sV : N) (p : placed (msa V)) : buf :=
  let a := p_acc p in
  let f := dirtied (p_off p) 1 (length (st a)) (fun i => bool_decide (st a !! i = Some FF)) (b_ff (p_buf p)) in
  mkBuf (b_addr (p_buf p)) (b_size (p_buf p)) (b_dirty (p_buf p))
    (if hasv then dirtied 0 sV (length (vl a)) (fun i => match vl a !! i with Some (Some _) => false | _ => true end) f
     else f).

(** ** Mask-compressed accumulator: MaskCompressedAccumulator.h *)
(** MaskCompressedAccumulator.h:48-50 getMemoryRequirement *)
Definition mca_req (sz : N) (n : nat) : N * N := (wmul (N.of_nat n) sz, sz).
(** MaskCompressedAccumulator.h:52-58 setBuffer *)
Definition mca_setbuf (sz : N) (n : nat) (b : buf) : res (placed (mca V)) :=
  _ <- assert_ (isAligned (b_addr b) sz) ;;
  _ <- assert_ (wmul (N.of_nat n) sz <=? b_size b) ;;
  '(b, off) <- getCleanMemory sz (N.of_nat n) b ;;
  _ <- needFF (b_ff b) off (sz * N.of_nat n) ;;
  Ok (mkPlaced (repeat (FF, None) n) b off).
(** Entry [i] is as memset to 0xFF: MaskCompressedAccumulator.h 52-65 *)
Definition mca_entry_clean (a : mca V) (i : nat) : bool :=
  match a !! i with Some (FF, None) => true | _ => false end.
(** MaskCompressedAccumulator.h:60-65 releaseBuffer *)
Definition mca_relbuf (sz : N) (p : placed (mca V)) : buf :=
  mkBuf (b_addr (p_buf p)) (b_size (p_buf p)) (b_dirty (p_buf p))
    (dirtied (p_off p) sz (length (p_acc p)) (mca_entry_clean (p_acc p)) (b_ff (p_buf p))).

(** ** Hash accumulator: HashAccumulator.h; [cap] is _capacity, already through adjustSize (:57-58) *)
(** HashAccumulator.h:52-54 getMemoryRequirement *)
Definition hash_req (sz : N) (cap : nat) : N * N := (wmul (N.of_nat cap) sz, sz).
(** HashAccumulator.h:68-74 setBuffer.  [size0], [max0]: _size and _maxSize at this point (0 after the
    constructor, set by the resize call of the complemented algorithm's constructor). *)
Definition hash_set (sz : N) (cap size0 max0 : nat) (b : buf) : res (placed (hash V)) :=
  _ <- assert_ (isAligned (b_addr b) sz) ;;
  _ <- assert_ (wmul (N.of_nat cap) sz <=? b_size b) ;;
  '(b, off) <- getCleanMemory sz (N.of_nat cap) b ;;
  _ <- needFF (b_ff b) off (sz * N.of_nat cap) ;;
  Ok (mkPlaced (mkHash (repeat (mkHent None None None) cap) size0 max0 []) b off).
(** Entry [i] is as memset to 0xFF: HashAccumulator.h 68-84 *)
Definition hash_entry_clean (a : hash V) (i : nat) : bool :=
  match h_tab a !! i with Some (mkHent None None None) => true | _ => false end.
(** HashAccumulator.h:76-84 releaseBuffer: _dirty + _maxSize * sizeof(EntryT) *)
Definition hash_rel (sz : N) (p : placed (hash V)) : buf :=
  mkBuf (b_addr (p_buf p)) (b_size (p_buf p))
    (wadd (b_dirty (p_buf p)) (wmul (N.of_nat (h_max (p_acc p))) sz))
    (dirtied (p_off p) sz (length (h_tab (p_acc p))) (hash_entry_clean (p_acc p)) (b_ff (p_buf p))).

(** ** Heap: Heap.h *)
(** Heap.h:46-48 getMemoryRequirement *)
Definition heap_req (sz : N) (cap : nat) : N * N := (wmul (N.of_nat cap) sz, sz).
(** Heap.h:50-57 setBuffer; [max0] is _maxSize at this point *)
Definition heap_set (sz : N) (cap max0 : nat) (b : buf) : res (placed heap) :=
  _ <- assert_ (isAligned (b_addr b) sz) ;;
  _ <- assert_ (wmul (N.of_nat cap) sz <=? b_size b) ;;
  Ok (mkPlaced (mkHeap [] cap max0) b 0).
(** Heap.h:59-65 releaseBuffer: max(_dirty, _maxSize * sizeof(EntryT)).  Cells below _maxSize have been
    written; make() records the largest size (Heap.h:80-83) and no row appends after it. *)
Definition heap_rel (sz : N) (p : placed heap) : buf :=
  mkBuf (b_addr (p_buf p)) (b_size (p_buf p))
    (N.max (b_dirty (p_buf p)) (wmul (N.of_nat (hmax (p_acc p))) sz))
    (dirtied 0 sz (hmax (p_acc p)) (fun _ => false) (b_ff (p_buf p))).
End Accs.

(** MSAAlgorithm.h:28-33, MCAAlgorithm.h:31-36, MaskedHashAlgorithm.h:28-33,122-127: requirement of an algorithm
    with a symbolic and a numeric accumulator *)
Definition both_req (s n : N * N) : N * N := (N.max (fst s) (fst n), N.lcm (snd s) (snd n)).
