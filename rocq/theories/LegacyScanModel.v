(** utility.h: the older prefix sum. *)
From Verif Require Import ScanModel.
From Verif Require Export Conc.

Section LScan.
Context {T : Type} (zero : T) (plus : T -> T -> T).
(** Largest value of the unsigned type of N: [x - 1] wraps around to it for [x = 0]. *)
Context (top : nat).
(** N - 1 for an unsigned N: utility.h 169-222 *)
Definition predW (x : nat) : nat := if x =? 0 then top else x - 1.

(** Arrays: [aDst] = out, [aPart] = partial_sum; [None] = never written.  The array in is only read.
    utility.h 179 *)
Notation tprog := (prog loc (option T)).

(** [seq_scan]: utility.h 170-176 *)
Definition lseqScan (src : list T) (N : nat) (out : list (option T)) : res (list (option T)) :=
  d <- set_ out 0 (Some zero) ;;
  for_ 0 (predW N) (fun i d => x <- getI d i ;; s <- get src i ;; set_ d (i + 1) (Some (plus x s))) d.

(** utility.h 187, 193-194 *)
Definition lStart (N nt tid : nat) : nat := (N / nt) * tid.
(** The end of the range of a thread: utility.h 193-194 *)
Definition lEnd (N nt tid : nat) : nat := if tid <? nt - 1 then lStart N nt tid + N / nt else N.

(** Before the barrier: utility.h 191-200 *)
Definition lPhase1 (src : list T) (N nt tid : nat) : tprog unit :=
  Wr (aDst, lStart N nt tid) (Some zero)
  (pbind (pfor (lStart N nt tid) (predW (lEnd N nt tid))
     (fun i _ => pbind (rdI (aDst, i)) (fun d => pbind (lift (get src i)) (fun s => Wr (aDst, i + 1) (Some (plus d s)) (Ret tt)))) tt) (fun _ =>
   pbind (rdI (aDst, predW (lEnd N nt tid))) (fun d =>
   pbind (lift (get src (predW (lEnd N nt tid)))) (fun s =>
   Wr (aPart, tid) (Some (plus d s)) (Ret tt))))).

(** After the barrier: utility.h 203-209 *)
Definition lPhase2 (N nt tid : nat) : tprog unit :=
  pbind (pfor 0 tid (fun i acc => pbind (rdI (aPart, i)) (fun p => Ret (plus acc p))) zero) (fun offset =>
  pfor (lStart N nt tid) (lEnd N nt tid)
     (fun i _ => pbind (rdI (aDst, i)) (fun d => Wr (aDst, i) (Some (plus d offset)) (Ret tt))) tt).

(** The second parallel region: utility.h 189-210 *)
Definition lRegion (src : list T) (N nt : nat) : list (phase loc (option T) unit unit) :=
  [PPar (fun _ t _ => lPhase1 src N nt t); PPar (fun _ t _ => lPhase2 N nt t)].

(** Memory at its start; my_malloc fills partial_sum with zeros (utility.h 188). *)
Definition lMem (out : list (option T)) (nt : nat) : gmap loc (option T) :=
  cells aDst out ∪ cells aPart (replicate nt (Some zero)).

(** utility.h 181 *)
Definition lIsSeq (N : nat) : bool := (N.of_nat N <? 2 ^ 17)%N.

(** [scan(in, out, N)] with [nt] threads (utility.h 178-213) always ends with [out']. *)
Definition lScan_always (src : list T) (N nt : nat) (out out' : list (option T)) : Prop :=
  if lIsSeq N then lseqScan src N out = Ok out'
  else exists m, region_always (lRegion src N nt) tt (lMem out nt) (replicate nt tt) tt m (replicate nt tt) /\ scanSees out m out'.
End LScan.

(** The first parallel region: every thread stores the number of threads in the one variable tnum.
    utility.h 184-186 *)
Definition tnumPhase (nt : nat) : list (prog unit nat unit) := replicate nt (Wr tt nt (Ret tt)).
