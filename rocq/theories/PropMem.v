(** C15, C16: scratch memory. *)
From Coq Require Import NArith Lia.
From Verif Require Import Base Spec MsaModel McaModel HashModel HeapModel MemModel MemProofs.
Local Open Scope N_scope.

(** ** C15 *)
(** For every buffer whose bytes from the declared dirty size on are 0xFF and every request that fits
    (the dirty objects end before some multiple [sC * k] of the clean object size, and [k + nC] clean
    objects fit into the buffer): no assertion fails, the clean objects are on the object grid, after the
    dirty objects, inside the buffer and all 0xFF; and bytes from the new dirty size on are 0xFF. *)
Theorem C15_splitMemory : forall (sD sC nD nC k : N) (b : buf),
  0 < sC -> b_size b + sC < 2 ^ 64 -> b_dirty b <= b_size b ->
  (forall i, b_dirty b <= i -> i < b_size b -> b_ff b i = true) ->
  sD * nD <= sC * k -> sC * (k + nC) <= b_size b ->
  exists b' off, splitMemory sD sC nD nC b = Ok (b', off) /\
    b_addr b' = b_addr b /\ b_size b' = b_size b /\
    off mod sC = 0 /\ sD * nD <= off /\ off + sC * nC <= b_size b /\
    (forall i, off <= i -> i < off + sC * nC -> b_ff b' i = true) /\
    (forall i, b_dirty b' <= i -> i < b_size b' -> b_ff b' i = true) /\
    b_dirty b' <= b_dirty b /\ b_dirty b' <= off /\
    (forall i, i < b_dirty b' -> b_ff b' i = b_ff b i).
Proof. exact splitMemory_ok. Qed.
Print Assumptions C15_splitMemory.

(** 13 bytes, 7 of them dirty; two 2-byte dirty objects and two 3-byte clean ones (k = 2): the memory is
    rounded down to 12 bytes, the clean objects go to 6..11 and byte 6 is cleaned. *)
Example C15_splitMemory_case :
  (b <- splitMemory 2 3 2 2 (mkBuf 48 13 7 (fun i => 7 <=? i)) ;;
   Ok (b_dirty (fst b), snd b, map (fun i => b_ff (fst b) (N.of_nat i)) (seq 0 13)))
  = Ok (6, 6, [false;false;false;false;false;false;true;true;true;true;true;true;true]).
Proof. vm_compute. reflexivity. Qed.

(** One-array MSA: on the buffer the driver allocates for it (any contents, all declared dirty) the
    symbolic accumulator starts clean; when the buffer is handed on after any rows (all states and values
    back to default) the numeric accumulator starts clean. *)
Theorem C15_msa1A_handover : forall (V : Type) (sz : N) (n : nat) (b : buf),
  0 < sz -> N.of_nat n * sz + sz < 2 ^ 64 ->
  fresh (both_req (msa1_req 1 n) (msa1_req sz n)) b ->
  exists b' off, msa1_set (V := V) false 1 n b = Ok (mkPlaced (mkMsa (repeat FF n) [] []) b' off) /\
  forall a : msa V, msa_pristine n a ->
  exists b'' off', msa1_set (V := V) true sz n (msa1_rel 1 (mkPlaced a b' off))
    = Ok (mkPlaced (mkMsa (repeat FF n) (repeat None n) []) b'' off').
Proof. intros V. exact msa1_handover. Qed.
Print Assumptions C15_msa1A_handover.

Theorem C15_msa2A_handover : forall (V : Type) (sV : N) (n : nat) (b : buf),
  0 < sV -> N.of_nat n * (1 + sV) + (1 + sV) < 2 ^ 64 ->
  fresh (both_req (msa2_req false sV n) (msa2_req true sV n)) b ->
  exists b' off, msa2_set (V := V) false sV n b = Ok (mkPlaced (mkMsa (repeat FF n) [] []) b' off) /\
  forall a : msa V, msa_pristine n a ->
  exists b'' off', msa2_set (V := V) true sV n (msa2_rel false sV (mkPlaced a b' off))
    = Ok (mkPlaced (mkMsa (repeat FF n) (repeat None n) []) b'' off').
Proof. intros V. exact msa2_handover. Qed.
Print Assumptions C15_msa2A_handover.

Theorem C15_mca_handover : forall (V : Type) (sz : N) (n : nat) (b : buf),
  0 < sz -> N.of_nat n * sz + sz < 2 ^ 64 ->
  fresh (both_req (mca_req 1 n) (mca_req sz n)) b ->
  exists b' off, mca_setbuf (V := V) 1 n b = Ok (mkPlaced (repeat (FF, None) n) b' off) /\
  exists b'' off', mca_setbuf (V := V) sz n (mca_relbuf 1 (mkPlaced (repeat (FF, @None V) n) b' off))
    = Ok (mkPlaced (repeat (FF, None) n) b'' off').
Proof. intros V. exact mca_handover. Qed.
Print Assumptions C15_mca_handover.

(** Hash: after any rows the slots below _maxSize hold no key but may hold leftovers, the others are
    untouched ([hash_ok], the state every hash kernel preserves). *)
Theorem C15_hash_handover : forall (V : Type) (sK sN : N) (cap s1 m1 s2 m2 : nat) (b : buf),
  0 < sK -> 0 < sN -> (0 < cap)%nat -> N.of_nat cap * N.max sK sN + N.max sK sN < 2 ^ 64 ->
  fresh (both_req (hash_req sK cap) (hash_req sN cap)) b ->
  exists b' off, hash_set (V := V) sK cap s1 m1 b
      = Ok (mkPlaced (mkHash (repeat (mkHent None None None) cap) s1 m1 []) b' off) /\
  forall a : hash V, hash_ok a -> length (h_tab a) = cap ->
  exists b'' off', hash_set (V := V) sN cap s2 m2 (hash_rel sK (mkPlaced a b' off))
    = Ok (mkPlaced (mkHash (repeat (mkHent None None None) cap) s2 m2 []) b'' off').
Proof. intros V. exact hash_handover. Qed.
Print Assumptions C15_hash_handover.

Theorem C15_heap_handover : forall (sz : N) (cap max0 : nat) (b : buf),
  0 < sz -> N.of_nat cap * sz + sz < 2 ^ 64 -> fresh (heap_req sz cap) b ->
  heap_set sz cap max0 b = Ok (mkPlaced (mkHeap [] cap max0) b 0) /\
  forall h, (hmax h <= cap)%nat ->
  let b1 := heap_rel sz (mkPlaced h b 0) in
  (forall i, b_dirty b1 <= i -> i < b_size b1 -> b_ff b1 i = true) /\
  exists b', heap_set sz cap (hmax h) b1 = Ok (mkPlaced (mkHeap [] cap (hmax h)) b' 0).
Proof. exact heap_handover_ok. Qed.
Print Assumptions C15_heap_handover.

(** 16-byte entries, 3 columns, address 48, contents 0xFF at even bytes only. *)
Definition exBuf (req : N * N) : buf := mkBuf 48 (fst req) (fst req) N.even.
Example C15_fresh_case : fresh (both_req (msa1_req 1 3) (msa1_req 16 3)) (exBuf (both_req (msa1_req 1 3) (msa1_req 16 3))).
Proof. vm_compute. auto. Qed.
Example C15_pristine_case : msa_pristine 3 (msa_clean_sym (V := Z) 3).
Proof.
  split; [reflexivity|]. split; intros i x Hx; apply elem_of_list_lookup_2 in Hx; cbn in Hx.
  - rewrite !elem_of_cons, elem_of_nil in Hx. naive_solver.
  - rewrite elem_of_nil in Hx. contradiction.
Qed.
(** The numeric accumulator alone gets the whole buffer cleaned; after a symbolic pass the last three bytes are
    already clean. *)
Example C15_msa1A_case :
  (p <- msa1_set (V := Z) false 1 3 (exBuf (both_req (msa1_req 1 3) (msa1_req 16 3))) ;;
   let b := msa1_rel 1 p in
   q <- msa1_set (V := Z) true 16 3 b ;;
   Ok (p_off p, b_dirty b, p_off q, st (p_acc q), allFF (b_ff (p_buf q)) 0 48)) =
  Ok (45, 45, 0, [FF; FF; FF], true).
Proof. vm_compute. reflexivity. Qed.
Example C15_hash_case :
  (p <- hash_set (V := Z) 4 16 0 0 (exBuf (both_req (hash_req 4 16) (hash_req 24 16))) ;;
   let a := mkHash (repeat (mkHent None (Some 5%Z) None) 8 ++ repeat (mkHent None None None) 8) 8 8 [] in
   let b := hash_rel 4 (mkPlaced a (p_buf p) (p_off p)) in
   q <- hash_set (V := Z) 24 16 0 0 b ;;
   Ok (p_off p, b_dirty b, p_off q, allFF (b_ff (p_buf q)) 0 384)) =
  Ok (320, 352, 0, true).
Proof. vm_compute. reflexivity. Qed.

(** C41 is false of the code: releaseBuffer of the hash table counts from the dirty size handed in, not from
    the (rounded up) start of the table, so if an earlier user left a dirty size that is not a multiple of the entry
    size, a table that fits behind it reports too little (entry size 24, dirty size 1: the table occupies bytes
    24..47, the reported dirty size is 25).
    The drivers never do this (the symbolic table comes first, on an all-dirty buffer). *)
Theorem C41_hash_release_refuted :
  ~ (forall (sz : N) (cap : nat) (b : buf) (p : placed (hash Z)) (a : hash Z),
       0 < sz -> b_dirty b <= b_size b -> promise b ->
       hash_set sz cap 0 0 b = Ok p -> hash_ok a -> length (h_tab a) = cap ->
       promise (hash_rel sz (mkPlaced a (p_buf p) (p_off p)))).
Proof. exact hash_release_refuted. Qed.
Print Assumptions C41_hash_release_refuted.

(** C41, the part that holds: if the table starts exactly at the dirty size, which is the case whenever
    the dirty size handed in is a multiple of the entry size. *)
Theorem C41_hash_release_partial : forall (V : Type) (sz : N) (cap : nat) (b : buf) (p : placed (hash V)) (a : hash V),
  0 < sz -> N.of_nat cap * sz < 2 ^ 64 -> b_size b + sz < 2 ^ 64 -> b_dirty b <= b_size b ->
  (forall i, b_dirty b <= i -> i < b_size b -> b_ff b i = true) ->
  b_dirty b mod sz = 0 ->
  hash_set sz cap 0 0 b = Ok p -> hash_ok a -> length (h_tab a) = cap ->
  forall i, let b' := hash_rel sz (mkPlaced a (p_buf p) (p_off p)) in
  b_dirty b' <= i -> i < b_size b' -> b_ff b' i = true.
Proof. intros V. exact hash_release_aligned. Qed.
Print Assumptions C41_hash_release_partial.

(** C41 for the other accumulators: releasing after any rows keeps the promise, from any starting state. *)
Theorem C41_msa_release : forall (V : Type) (two hasv : bool) (sz : N) (n : nat) (a : msa V) (b : buf) (off : N),
  0 < sz -> msa_pristine n a ->
  (forall i, b_dirty b <= i -> i < b_size b -> b_ff b i = true) ->
  let b' := if two then msa2_rel hasv sz (mkPlaced a b off) else msa1_rel sz (mkPlaced a b off) in
  forall i, b_dirty b' <= i -> i < b_size b' -> b_ff b' i = true.
Proof. intros V. exact msa_release. Qed.
Print Assumptions C41_msa_release.

Theorem C41_heap_release : forall (sz : N) (h : heap) (b : buf),
  0 < sz -> N.of_nat (hmax h) * sz < 2 ^ 64 ->
  (forall i, b_dirty b <= i -> i < b_size b -> b_ff b i = true) ->
  let b' := heap_rel sz (mkPlaced h b 0) in
  forall i, b_dirty b' <= i -> i < b_size b' -> b_ff b' i = true.
Proof. exact heap_release. Qed.
Print Assumptions C41_heap_release.

(** A heap that held two 12-byte entries, in a buffer whose first 10 bytes were dirty. *)
Example C41_heap_case :
  let b := heap_rel 12 (mkPlaced (mkHeap [] 3 2) (mkBuf 48 36 10 (fun i => 10 <=? i)) 0) in
  b_dirty b = 24 /\ b_ff b 23 = false /\ b_ff b 24 = true.
Proof. vm_compute. auto. Qed.
Example C41_hash_case : exists p : placed (hash Z), hash_set 24 16 0 0 (mkBuf 48 480 48 (fun i => 48 <=? i)) = Ok p /\ p_off p = 48.
Proof. eexists. split; [vm_compute|]; reflexivity. Qed.

(** ** C16 *)
(** For every address malloc may return and every alignment: the pointer is aligned, the 8-byte header lies
    inside the block in front of the user bytes, the user bytes end inside the block, and subtracting the
    stored shift gives back the address malloc returned. *)
Theorem C16_mallocAligned : forall base al nbytes : N,
  0 < al -> base + (al + 8 + nbytes) < 2 ^ 64 ->
  let p := maPtr base al in
  p mod al = 0 /\ base + 8 <= p /\ p + nbytes <= base + maReq nbytes al /\
  wsub p (maShift base al) = base.
Proof. exact mallocAligned_ok. Qed.
Print Assumptions C16_mallocAligned.

(** With an alignment that is a multiple of 8, or 1, 2 or 4 (16-aligned malloc), the header store is itself
    aligned, touches nothing else, and freeAligned hands exactly malloc's pointer to free. *)
Theorem C16_malloc_free : forall (base al : N) (hdr : N -> option N),
  0 < al -> base + al + 8 < 2 ^ 64 -> base mod 16 = 0 ->
  (al mod 8 = 0 \/ al = 1 \/ al = 2 \/ al = 4) ->
  exists hdr', mallocAligned base al hdr = Ok (maPtr base al, hdr') /\
    (forall a, a <> maPtr base al - 8 -> hdr' a = hdr a) /\
    freeAligned (maPtr base al) hdr' = Ok base.
Proof. exact malloc_free_ok. Qed.
Print Assumptions C16_malloc_free.

Example C16_case : maPtr 48 24 = 72 /\ maReq 100 24 = 132 /\
  exists h, mallocAligned 48 24 (fun _ => None) = Ok (72, h) /\ freeAligned 72 h = Ok 48.
Proof. split; [reflexivity|]. split; [reflexivity|]. eexists. split; reflexivity. Qed.

(** False of the code for the heap accumulator with 32-bit indices: its entry has 12 bytes, so the
    requested alignment is 12 and the size_t header can fall on an address that is 4 modulo 8. *)
Theorem C16_header_alignment_refuted :
  ~ (forall base al hdr, 0 < al -> base mod 16 = 0 -> exists r, mallocAligned base al hdr = Ok r).
Proof. exact header_refuted. Qed.
Print Assumptions C16_header_alignment_refuted.
