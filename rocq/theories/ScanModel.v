(** spgemm-blocks/scan.h *)
From Verif Require Export Conc.

(** A shared cell is (array, index). *)
Notation loc := (nat * nat)%type.

Section Scan.
Context {T : Type} (zero : T) (plus : T -> T -> T).

(** The arrays of scan.h: 0 = dst, 1 = partialSums; [None] = never written.
    The source array is only read and is kept as a list.  scan.h 10, 56 *)
Definition aDst : nat := 0.
(** partialSums: scan.h 10, 56 *)
Definition aPart : nat := 1.
Notation tprog := (prog loc (option T)).

(** Read of a cell whose value is used.  scan.h 25, 30, 71, 76 *)
Definition rdI (l : loc) : tprog T :=
  Rd l (fun v => match v with Some x => Ret x | None => Fail Uninit end).

(** scan.h 11-14, 57-60 *)
Definition scanStart (size nt tid : nat) : nat := tid * (size / nt).
(** rowEnd of a thread: scan.h 14, 60 *)
Definition scanEnd (size nt tid : nat) : nat := if tid + 1 =? nt then size else (tid + 1) * (size / nt).

(** Before the barrier: scan.h 11-20 and 57-66 (the two functions share this code). *)
Definition scanPhase1 (src : list T) (size nt tid : nat) : tprog unit :=
  pbind (lift (for_ (scanStart size nt tid) (scanEnd size nt tid)
                    (fun i acc => s <- get src i ;; Ok (plus acc s)) zero))
        (fun localSum => Wr (aPart, tid) (Some localSum) (Ret tt)).

(** [offset] loop: scan.h 23-26 and 69-72 *)
Definition scanOffset (tid : nat) : tprog T :=
  pfor 0 tid (fun i acc => pbind (rdI (aPart, i)) (fun p => Ret (plus acc p))) zero.

(** After the barrier, inclusive: scan.h 28-31 *)
Definition incPhase2 (src : list T) (size nt tid : nat) : tprog unit :=
  pbind (scanOffset tid) (fun offset =>
  pbind (lift (get src (scanStart size nt tid))) (fun s =>
  Wr (aDst, scanStart size nt tid) (Some (plus offset s))
  (pfor (scanStart size nt tid + 1) (scanEnd size nt tid)
     (fun i _ => pbind (rdI (aDst, i - 1)) (fun d => pbind (lift (get src i)) (fun s => Wr (aDst, i) (Some (plus d s)) (Ret tt)))) tt))).

(** After the barrier, exclusive: scan.h 74-77 *)
Definition excPhase2 (src : list T) (size nt tid : nat) : tprog unit :=
  pbind (scanOffset tid) (fun offset =>
  Wr (aDst, scanStart size nt tid) (Some offset)
  (pfor (scanStart size nt tid + 1) (scanEnd size nt tid)
     (fun i _ => pbind (rdI (aDst, i - 1)) (fun d => pbind (lift (get src (i - 1))) (fun s => Wr (aDst, i) (Some (plus d s)) (Ret tt)))) tt)).

(** The parallel regions: scan.h 47-50 and 93-96 *)
Definition incRegion (src : list T) (size nt : nat) : list (phase loc (option T) unit unit) :=
  [PPar (fun _ t _ => scanPhase1 src size nt t); PPar (fun _ t _ => incPhase2 src size nt t)].
(** The region of exclusiveScan: scan.h 93-96 *)
Definition excRegion (src : list T) (size nt : nat) : list (phase loc (option T) unit unit) :=
  [PPar (fun _ t _ => scanPhase1 src size nt t); PPar (fun _ t _ => excPhase2 src size nt t)].

(** Sequential branches: scan.h 37-43 and 83-89 *)
Definition incSeq (src : list T) (size : nat) (dst : list (option T)) : res (list (option T)) :=
  s <- get src 0 ;;
  d <- set_ dst 0 (Some s) ;;
  for_ 1 size (fun i d => x <- getI d (i - 1) ;; s <- get src i ;; set_ d i (Some (plus x s))) d.
(** exclusiveScan, sequential: scan.h 83-89 *)
Definition excSeq (src : list T) (size : nat) (dst : list (option T)) : res (list (option T)) :=
  d <- set_ dst 0 (Some zero) ;;
  for_ 1 size (fun i d => x <- getI d (i - 1) ;; s <- get src (i - 1) ;; set_ d i (Some (plus x s))) d.

(** [scan.h 37]: [size < (1u << 17u) || numThreads == 1]; [scan.h 83]: [size < (1u << 1u) || numThreads == 1] *)
Definition incIsSeq (size nt : nat) : bool := (N.of_nat size <? 2 ^ 17)%N || (nt =? 1).
(** exclusiveScan: scan.h 83 *)
Definition excIsSeq (size nt : nat) : bool := (size <? 2) || (nt =? 1).

(** Memory at the start of the region: dst and a fresh partialSums of [nt] cells (scan.h 45, 91). *)
Definition cells {X} (a : nat) (l : list X) : gmap loc X :=
  list_to_map (imap (fun i x => ((a, i), x)) l).
(** Memory at the start of the region: scan.h 45, 91 *)
Definition scanMem (dst : list (option T)) (nt : nat) : gmap loc (option T) :=
  cells aDst dst ∪ cells aPart (replicate nt None).

(** What the caller can see afterwards: the dst array.  scan.h 10, 56. *)
Definition scanSees (dst : list (option T)) (m : gmap loc (option T)) (dst' : list (option T)) : Prop :=
  length dst' = length dst /\ forall i, i < length dst -> m !! (aDst, i) = dst' !! i.

(** [inclusiveScan(src, size, dst, numThreads)], scan.h 34-53, always ends with [dst']. *)
Definition incScan_always (src : list T) (size nt : nat) (dst dst' : list (option T)) : Prop :=
  if incIsSeq size nt then incSeq src size dst = Ok dst'
  else exists m, region_always (incRegion src size nt) tt (scanMem dst nt) (replicate nt tt) tt m (replicate nt tt) /\ scanSees dst m dst'.

(** [exclusiveScan(src, size, dst, numThreads)], scan.h 80-99, always ends with [dst']. *)
Definition excScan_always (src : list T) (size nt : nat) (dst dst' : list (option T)) : Prop :=
  if excIsSeq size nt then excSeq src size dst = Ok dst'
  else exists m, region_always (excRegion src size nt) tt (scanMem dst nt) (replicate nt tt) tt m (replicate nt tt) /\ scanSees dst m dst'.

End Scan.
