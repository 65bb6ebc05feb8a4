(** The measuring loop of the benchmarks and the output object it hands to the products.
    benchmarks/benchmarks-util.h 102-148; CSR.h 23-68; the ends of the products: spgemm-blocks/common.h 152-166,
    masked-spgemm.h 84, 103, 157-193, masked-spgemm-inner.h 62, 120; spa_mult.h 15-62; mask_hash_mult.h 44-109,
    177-210; inner_mult.h 53-63, 146-182; heap_mult_generic.h 730-811.

    Simplifications.  The products themselves are a relation: [prod t nz R], the call with t threads on an output
    object whose nnz was nz may compute the matrix R (their models are in the other files).  A new array gets its
    final contents at once.  Temporary arrays that a product releases itself are left out.  Times are left out. *)
From Coq Require Import NArith.
From stdpp Require Import gmap.
From Verif Require Export IndexModel ReportModel ObjModel.
From Verif Require Import Base Spec.

(** How a product hands over its result.  [K1p]: initC (MaskedSpGEMM1p, MaskedInnerSpGEMM, the poly driver);
    [K2p]: MaskedSpGEMM2p; [KOver]: MaskedSPASpGEMM, mxm_hash_mask, mxm_hash_mask_wobin; [KNohash]:
    innerSpGEMM_nohash for a mask of these rows and nnz; [KHeap]: HeapSpGEMM; [KAssign]: HashIntersect. *)
Inductive kind := K1p | K2p | KOver | KNohash (mrows mnnz : nat) | KHeap | KAssign.

Section Run.
Context {V S : Type} (dflt : V) (pick : gmap nat (ablock V) -> nat) (null0 : bool).
Context (zero : S) (step : S -> V -> S) (plus : S -> S -> S).
Context (encI : nat -> list N) (encV : V -> list N) (szI szV : nat).
Notation heap := (gmap nat (ablock V)).

(** my_malloc: utility.h 109-147.  [null0]: malloc(0) gives NULL. *)
Definition allocI (l : list nat) (h : heap) : ptr * heap :=
  if null0 && (length l =? 0) then (PNull, h) else (PBlk (pick h), <[pick h := BI l]> h).
(** my_malloc<NT>: utility.h 109-147 *)
Definition allocV (l : list V) (h : heap) : ptr * heap :=
  if null0 && (length l =? 0) then (PNull, h) else (PBlk (pick h), <[pick h := BV l]> h).
(** The three arrays of the result [R] and the members: common.h 159-165; spa_mult.h 15-18, 59-62;
    mask_hash_mult.h 44-47, 107-109; inner_mult.h 149-155; heap_mult_generic.h 731-732, 783-788.  [zb]: the
    member zerobased. *)
Definition setArrays (R : csr V) (zb : bool) (h : heap) : obj * heap :=
  let '(rp, h) := allocI (rowptr R) h in
  let '(ci, h) := allocI (colids R) h in
  let '(va, h) := allocV (values R) h in
  (mkObj (rows R) (cols R) (nnz R) rp ci va zb, h).

(** [initC] and the stores to C that follow: common.h 152-185 *)
Definition initC (R : csr V) (C : obj) (h : heap) : res (obj * heap) :=
  '(C, h) <- makeEmpty C h ;; Ok (setArrays R (o_zb C) h).
(** The object R of MaskedSpGEMM2p, the hand-over, and R's destructor: masked-spgemm.h 103, 161, 181-193 *)
Definition publish2p (R : csr V) (C : obj) (h : heap) : res (obj * heap) :=
  '(Ro, h) <- initC R defaultCtor h ;;
  '(C, h) <- makeEmpty C h ;;
  let C := mkObj (o_rows Ro) (o_cols Ro) (o_nnz Ro) (o_rp Ro) (o_ci Ro) (o_va Ro) (o_zb C) in
  '(_, h) <- makeEmpty (mkObj 0 0 0 (o_rp Ro) (o_ci Ro) (o_va Ro) (o_zb Ro)) h ;;
  Ok (C, h).
(** The members are overwritten: spa_mult.h 15-18, 59-62; mask_hash_mult.h 44-47, 107-109, 177-180, 208-210 *)
Definition publishOver (R : csr V) (h : heap) : res (obj * heap) := Ok (setArrays R true h).
(** The local matrix C of innerSpGEMM_nohash, with the shape of the mask, then C_final, then C.make_empty() and
    the destructor of C: inner_mult.h 53-63, 149-155, 182-183 *)
Definition publishNohash (mrows mnnz : nat) (R : csr V) (h : heap) : res (obj * heap) :=
  let '(T, h) := setArrays (mkCsr mrows 0 mnnz (replicate (mrows + 1) 0) (replicate mnnz 0) (replicate mnnz dflt)) true h in
  let '(C, h) := setArrays R true h in
  '(T, h) <- makeEmpty T h ;;
  '(T, h) <- makeEmpty T h ;;
  Ok (C, h).
(** [if (!C.isEmpty()) C.make_empty()], the array threadsNvals, which is not released, and the result:
    heap_mult_generic.h 730-732, 746, 783-788, 809-811; CSR.h 89.  [t] threads. *)
Definition publishHeap (t : nat) (R : csr V) (C : obj) (h : heap) : res (obj * heap) :=
  '(C, h) <- (if o_nnz C =? 0 then Ok (C, h) else makeEmpty C h) ;;
  let '(_, h) := allocI (replicate t 0) h in
  Ok (setArrays R (o_zb C) h).
(** The matrix that Intersect returns is assigned to C and destroyed: benchmarks/TriCntAll.cpp 249; CSR.h 134-163, 699-702,
    732-734.  The local matrix Ct is left out. *)
Definition publishAssign (R : csr V) (C : obj) (h : heap) : res (obj * heap) :=
  let '(T, h) := setArrays R true h in
  '(C, h) <- assign dflt pick false C T h ;;
  '(_, h) <- makeEmpty T h ;;
  Ok (C, h).
(** The hand-over of the product that is called: benchmarks-util.h 118, 125 *)
Definition publish (k : kind) (t : nat) (R : csr V) (C : obj) (h : heap) : res (obj * heap) :=
  match k with
  | K1p => initC R C h
  | K2p => publish2p R C h
  | KOver => publishOver R h
  | KNohash mrows mnnz => publishNohash mrows mnnz R h
  | KHeap => publishHeap t R C h
  | KAssign => publishAssign R C h
  end.

(** A loop whose body has several possible outcomes; a fault ends it.  benchmarks-util.h 118, 121. *)
Inductive loopR {X} (body : X -> res X -> Prop) : nat -> X -> res X -> Prop :=
| loop_end s : loopR body 0 s (Ok s)
| loop_fault n s e : body s (Err e) -> loopR body (Datatypes.S n) s (Err e)
| loop_next n s s' r : body s (Ok s') -> loopR body n s' r -> loopR body (Datatypes.S n) s r.
(** [for (int i = 0; i < n; ++i)] with a size_t n: the counter must not pass 2^31 - 1 (the fault is put before
    the iterations).  benchmarks-util.h 118, 121 *)
Definition intLoop {X} (body : X -> res X -> Prop) (n : nat) (s : X) (r : res X) : Prop :=
  if (N.of_nat n <=? 2147483647)%N then loopR body n s r else r = Err OutOfBounds.

(** A call of f on C: benchmarks-util.h 118, 125 *)
Definition call (k : kind) (prod : nat -> nat -> csr V -> Prop) (t : nat) (s : obj * heap) (r : res (obj * heap)) : Prop :=
  exists R, prod t (o_nnz (fst s)) R /\ r = publish k t R (fst s) (snd s).
(** [C.make_empty(); f(...)]: benchmarks-util.h 122-125 *)
Definition measured (k : kind) (prod : nat -> nat -> csr V -> Prop) (t : nat) (s : obj * heap) (r : res (obj * heap)) : Prop :=
  match makeEmpty (fst s) (snd s) with Err e => r = Err e | Ok s => call k prod t s r end.

(** The arrays of C that a report reads: benchmarks-util.h 35-43; an unset pointer may not be read. *)
Definition readI (p : ptr) (n : nat) (h : heap) : res (list nat) :=
  _ <- notNull p ;; if n =? 0 then Ok [] else ' (_, l) <- blkI p h ;; Ok l.
(** A.values: benchmarks-util.h 35 *)
Definition readV (p : ptr) (n : nat) (h : heap) : res (list V) :=
  _ <- notNull p ;; if n =? 0 then Ok [] else ' (_, l) <- blkV p h ;; Ok l.
(** A line of the report: threads, nnz, sumall() and checksum(C).  benchmarks-util.h 135-144 *)
Record line := mkLine { l_threads : nat; l_nnz : nat; l_sum : S; l_check : N * N * N }.
(** The report of one number of threads: benchmarks-util.h 133-145 *)
Definition report (t : nat) (C : obj) (h : heap) (r : res line) : Prop :=
  match (va <- readV (o_va C) (o_nnz C) h ;; ci <- readI (o_ci C) (o_nnz C) h ;; rp <- readI (o_rp C) (o_rows C) h ;;
         c <- checksum encI encV szI szV (o_rows C) (o_nnz C) rp ci va ;; Ok (va, c)) with
  | Err e => r = Err e
  | Ok (va, c) => exists x, sumall_result zero step plus va (o_nnz C) x /\ r = Ok (mkLine t (o_nnz C) x c)
  end.

(** One number of threads: benchmarks-util.h 112-146; the last [makeEmpty] is the destructor of C. *)
Definition runOne (k : kind) (prod : nat -> nat -> csr V -> Prop) (witers niters t : nat) (h : heap) (r : res (heap * line)) : Prop :=
  exists r1, intLoop (call k prod t) witers (defaultCtor, h) r1 /\
  match r1 with
  | Err e => r = Err e
  | Ok s => exists r2, intLoop (measured k prod t) niters s r2 /\
    match r2 with
    | Err e => r = Err e
    | Ok (C, h) => exists r3, report t C h r3 /\
      r = (l <- r3 ;; ' (C, h) <- makeEmpty C h ;; ' (C, h) <- makeEmpty C h ;; Ok (h, l))
    end
  end.
(** [run]: benchmarks-util.h 102-148 *)
Fixpoint run (k : kind) (prod : nat -> nat -> csr V -> Prop) (witers niters : nat) (tnums : list nat) (h : heap) (r : res (heap * list line)) : Prop :=
  match tnums with
  | [] => r = Ok (h, [])
  | t :: ts => exists r1, runOne k prod witers niters t h r1 /\
    match r1 with
    | Err e => r = Err e
    | Ok (h, l) => exists r2, run k prod witers niters ts h r2 /\ r = (' (h, ls) <- r2 ;; Ok (h, l :: ls))
    end
  end.
End Run.
Arguments line : clear implicits.
