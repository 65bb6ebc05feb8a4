(** C37: the key-value merge sort of utility.h. *)
From Verif Require Import Base KvSortModel KvSortProofs.

(** C37, up to half the range of the index type (N <= W/2 + 1): the call ends, faults nowhere, and the pairs are
    permuted into ascending key order, pairs with equal keys staying in their order. *)
Theorem C37_stable_sort_partial :
  forall V (dflt : V) W fuel key value, 1 <= length key -> length value = length key -> 2 * length key <= W + 2 -> length key <= fuel ->
  exists Y, kvSort dflt W fuel key value (length key) = Ok (fst <$> Y, snd <$> Y) /\
    Y ≡ₚ zip key value /\
    StronglySorted (fun x y => fst x <= fst y) Y /\
    (forall k, filter (fun x => fst x = k) Y = filter (fun x => fst x = k) (zip key value)).
Proof. intros V dflt W fuel key value. apply kvSort_ok. Qed.
Print Assumptions C37_stable_sort_partial.

(** Finding: exactly beyond that bound the midpoint (left + right) / 2 wraps around and the recursion never comes
    back, whatever the arrays and however deep the recursion may go. *)
Theorem C37_large_refuted :
  forall V (dflt : V) W fuel key value N r, Nat.even W = true -> W + 4 <= 2 * N -> N < W ->
  kvSort dflt W fuel key value N <> Ok r.
Proof.
  intros V dflt W fuel key value N r He H1 H2 H. unfold kvSort in H.
  assert (E : decW W N = N - 1) by (unfold decW; destruct (Nat.eqb_spec N 0); lia). rewrite E in H.
  destruct (kvMergesort W fuel (key, value, replicate N 0, replicate N dflt) 0 (N - 1)) as [s|f] eqn:Em; [|discriminate].
  apply (mergesort_wrap W fuel _ _ 0 (N - 1)) in Em; [exact Em|exact He|lia|lia|lia].
Qed.
Print Assumptions C37_large_refuted.

(** Finding: for N = 0 the upper bound N - 1 wraps around and the first cell of the empty arrays is read. *)
Theorem C37_empty_refuted :
  forall V (dflt : V) W fuel, 2 <= W <= fuel -> kvSort dflt W fuel [] [] 0 = Err OutOfBounds.
Proof.
  intros V dflt W fuel HW. unfold kvSort. change (decW W 0) with (W - 1). destruct fuel as [|fuel]; [lia|].
  pose proof (mergesort_empty (V := V) W fuel (W - 1) ltac:(lia) ltac:(lia)) as H. unfold kvst in H. cbn [replicate]. rewrite H. reflexivity.
Qed.
Print Assumptions C37_empty_refuted.

Example C37_example :
  kvSort 0 256 7 [3; 1; 2; 1; 3; 0; 1] [10; 11; 12; 13; 14; 15; 16] 7 = Ok ([0; 1; 1; 1; 2; 3; 3], [15; 11; 13; 16; 12; 10; 14]) /\
  (exists r, kvSort 0 8 20 [5; 4; 3; 2; 1] [0; 1; 2; 3; 4] 5 = Ok r) /\
  kvSort 0 8 20 [6; 5; 4; 3; 2; 1] [0; 1; 2; 3; 4; 5] 6 = Err OutOfFuel.
Proof. split; [reflexivity|]. split; [eexists; reflexivity|reflexivity]. Qed.
