(** C18: the prefix sums of scan.h. *)
From Verif Require Import Base Conc ScanModel ConcProofs ScanProofs ScanStatements.

(** C18 (exclusive): for any thread count and any interleaving the call always ends, faults nowhere,
    and leaves src[0]+...+src[i-1] in dst[i] for i < size, the rest of dst unchanged.  [T] is any
    type with an associative addition and a zero (so wrapping integers are included). *)
Theorem C18_exclusive_scan :
  forall T (zero : T) (plus : T -> T -> T) src size nt dst,
  (forall x y z, plus x (plus y z) = plus (plus x y) z) -> (forall x, plus zero x = x) -> (forall x, plus x zero = x) ->
  1 <= size <= length src -> size <= length dst -> 1 <= nt ->
  excScan_always zero plus src size nt dst
    (((fun i => Some (fold_left plus (take i src) zero)) <$> seq 0 size) ++ drop size dst).
Proof. exact @exclusive_scan_ok. Qed.
Print Assumptions C18_exclusive_scan.

(** C18 (inclusive). *)
Theorem C18_inclusive_scan :
  forall T (zero : T) (plus : T -> T -> T) src size nt dst,
  (forall x y z, plus x (plus y z) = plus (plus x y) z) -> (forall x, plus zero x = x) -> (forall x, plus x zero = x) ->
  1 <= size <= length src -> size <= length dst -> 1 <= nt ->
  incScan_always zero plus src size nt dst
    (((fun i => Some (fold_left plus (take (i + 1) src) zero)) <$> seq 0 size) ++ drop size dst).
Proof. exact @inclusive_scan_ok. Qed.
Print Assumptions C18_inclusive_scan.

(** The parallel branch is taken for three elements and two threads; the sequential one gives the same. *)
Example C18_example :
  excIsSeq 3 2 = false /\
  excScan_always 0 Nat.add [4; 5; 6] 3 2 [None; None; None; Some 9] [Some 0; Some 4; Some 9; Some 9] /\
  excSeq 0 Nat.add [4; 5; 6] 3 [None; None; None; Some 9] = Ok [Some 0; Some 4; Some 9; Some 9] /\
  incSeq Nat.add [4; 5; 6] 3 [None; None; None] = Ok [Some 4; Some 9; Some 15].
Proof.
  split; [reflexivity|]. split; [|split; reflexivity].
  apply (C18_exclusive_scan nat 0 Nat.add [4; 5; 6] 3 2 [None; None; None; Some 9]); simpl; intros; lia.
Qed.
(** A region that ends only one way has no other outcome. *)
Example C18_outcomes : forall src size nt dst o e m ss,
  region_always (excRegion 0 Nat.add src size nt) tt (scanMem dst nt) (replicate nt tt) e m ss ->
  region_outcome (excRegion 0 Nat.add src size nt) tt (scanMem dst nt) (replicate nt tt) o -> o = Ok (e, m, ss).
Proof. intros. eapply region_always_outcome; eauto. Qed.

(** C28 (scan part): no conflicting accesses when every thread has an element. *)
Theorem C28_exclusive_scan_race_free :
  forall T (zero : T) (plus : T -> T -> T) src size nt dst,
  (forall x y z, plus x (plus y z) = plus (plus x y) z) -> (forall x, plus zero x = x) -> (forall x, plus x zero = x) ->
  1 <= size <= length src -> size <= length dst -> 1 <= nt <= size ->
  region_race_free (excRegion zero plus src size nt) tt (scanMem dst nt) (replicate nt tt).
Proof. exact @exclusive_scan_race_free. Qed.
Print Assumptions C28_exclusive_scan_race_free.

Theorem C28_inclusive_scan_race_free :
  forall T (zero : T) (plus : T -> T -> T) src size nt dst,
  (forall x y z, plus x (plus y z) = plus (plus x y) z) -> (forall x, plus zero x = x) -> (forall x, plus x zero = x) ->
  1 <= size <= length src -> size <= length dst -> 1 <= nt <= size ->
  region_race_free (incRegion zero plus src size nt) tt (scanMem dst nt) (replicate nt tt).
Proof. exact @inclusive_scan_race_free. Qed.
Print Assumptions C28_inclusive_scan_race_free.

(** Finding: with fewer elements than threads, several threads store to dst[0] unsynchronised. *)
Theorem C28_exclusive_scan_race_refuted :
  ~ (forall (src : list nat) size nt dst, 1 <= size <= length src -> size <= length dst -> 1 <= nt ->
     region_race_free (excRegion 0 Nat.add src size nt) tt (scanMem dst nt) (replicate nt tt)).
Proof. exact exclusive_scan_race_refuted. Qed.
Print Assumptions C28_exclusive_scan_race_refuted.

(** Finding: on an empty array both functions store to dst[0] (inclusiveScan also reads src[0]). *)
Theorem C18_empty_array_refuted :
  (forall nt, excIsSeq 0 nt = true) /\ excSeq 0 Nat.add [] 0 [] = Err OutOfBounds /\
  (forall nt, incIsSeq 0 nt = true) /\ incSeq Nat.add [] 0 [] = Err OutOfBounds.
Proof. repeat split; reflexivity. Qed.
Print Assumptions C18_empty_array_refuted.
