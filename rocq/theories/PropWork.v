(** C17 and C19: work distribution and flop counting of common.h. *)
From Verif Require Import WorkModel WorkProofs Spec Examples.

(** C17: for any array of accumulated work (sorted or not), any total and any number of threads, every
    thread gets a range inside [0, nrows), consecutive threads' ranges are adjacent, and every row is
    in the range of exactly one thread. *)
Theorem C17_distribution_partitions_rows :
  forall total accum nrows nt, nrows <= length accum -> 1 <= nt ->
  (forall t, t < nt -> exists rb re, distributeWork total accum nrows nt t = Ok (rb, re) /\ rb <= re <= nrows) /\
  (forall t rb re rb' re', t + 1 < nt -> distributeWork total accum nrows nt t = Ok (rb, re) ->
     distributeWork total accum nrows nt (t + 1) = Ok (rb', re') -> re = rb') /\
  (forall row, row < nrows -> exists t, t < nt /\
     (exists rb re, distributeWork total accum nrows nt t = Ok (rb, re) /\ rb <= row < re) /\
     (forall u rb re, u < nt -> distributeWork total accum nrows nt u = Ok (rb, re) -> rb <= row < re -> u = t)).
Proof. exact distribute_partition. Qed.
Print Assumptions C17_distribution_partitions_rows.

Example C17_example :
  (distributeWork 12 [0; 3; 3; 10] 4 3 <$> [0; 1; 2]) = [Ok (0, 3); Ok (3, 3); Ok (3, 4)] /\
  (distributeWork 0 [0; 0; 0] 3 2 <$> [0; 1]) = [Ok (0, 0); Ok (0, 3)].
Proof. split; vm_compute; reflexivity. Qed.

(** On sorted input the cut is where std::lower_bound promises. *)
Theorem C17_lower_bound_correct :
  forall arr n val, (forall i j a b, arr !! i = Some a -> arr !! j = Some b -> i <= j -> a <= b) -> n <= length arr ->
  exists r, lower_bound arr n val = Ok r /\ r <= n /\
    (forall i x, i < r -> arr !! i = Some x -> x < val) /\ (forall i x, r <= i < n -> arr !! i = Some x -> val <= x).
Proof. exact lower_bound_ok. Qed.
Print Assumptions C17_lower_bound_correct.
Example C17_lower_bound_example : lower_bound [0; 3; 3; 10] 4 3 = Ok 1 /\ lower_bound [0; 3; 3; 10] 4 11 = Ok 4.
Proof. split; reflexivity. Qed.

(** C19: whatever iterations each thread runs and in whatever order the private sums are combined, cell
    [i] of the per-row array holds the number of products of row [i], and the sum returned is their
    total. *)
Theorem C19_calculateFlops :
  forall V (A B : csr V) dst, wf A -> wf B -> cols A = rows B -> rows A <= length dst ->
  let f i := sum_list ((fun ka => length (row_entries B (fst ka))) <$> row_entries A i) in
  calculateFlops_always A B dst (((fun i => Some (f i)) <$> seq 0 (rows A)) ++ drop (rows A) dst) (sum_list (f <$> seq 0 (rows A))).
Proof. exact @calculateFlops_ok. Qed.
Print Assumptions C19_calculateFlops.

(** With a plain mask, rows whose mask row is empty count 0. *)
Theorem C19_calculateFlops_masked :
  forall V (A B M : csr V) dst, compatible A B M -> rows A <= length dst ->
  let f i := match row_cols M i with [] => 0 | _ => sum_list ((fun ka => length (row_entries B (fst ka))) <$> row_entries A i) end in
  calculateFlopsM_always A B M dst (((fun i => Some (f i)) <$> seq 0 (rows A)) ++ drop (rows A) dst) (sum_list (f <$> seq 0 (rows A))).
Proof. exact @calculateFlopsM_ok. Qed.
Print Assumptions C19_calculateFlops_masked.

(** calculateWork: for each mask entry, the lengths of the row of A and the column of B, if both are
    non-empty. *)
Theorem C19_calculateWork :
  forall V (A M : csr V) (B : csc V) dst, wf A -> wf_csc B -> wf M -> rows M = rows A -> cols M = c_cols B -> rows M <= length dst ->
  let f i := sum_list ((fun c => let a := length (row_entries A i) in let b := length (col_entries B c) in
                      if (a =? 0) || (b =? 0) then 0 else a + b) <$> row_cols M i) in
  calculateWork_always A B M dst (((fun i => Some (f i)) <$> seq 0 (rows M)) ++ drop (rows M) dst) (sum_list (f <$> seq 0 (rows M))).
Proof. exact @calculateWork_ok. Qed.
Print Assumptions C19_calculateWork.

Example C19_example :
  (flopsRow exA exB <$> [0; 1; 2]) = [Ok 5; Ok 0; Ok 4] /\ (flopsRowM exA exB exM <$> [0; 1; 2]) = [Ok 5; Ok 0; Ok 4] /\
  compatible exA exB exM /\ mjoin [[2; 0]; []; [1]] ≡ₚ seq 0 (rows exA).
Proof.
  split; [vm_compute; reflexivity|]. split; [vm_compute; reflexivity|]. split; [exact ex_compat|].
  simpl. apply Permutation_cons_app with (l1 := [0;1]) (l2 := []). rewrite app_nil_r. reflexivity.
Qed.

(** Finding: in a [w]-bit index type the count of a row can wrap to 0 although the row has products;
    the drivers then leave the row out. *)
Theorem C19_wraparound_refuted :
  forall w : N, exists (A B : csr nat), wf A /\ wf B /\ cols A = rows B /\ sorted_rows A /\ sorted_rows B /\ 0 < rows A /\
    flopsRowW w A B 0 = Ok 0%N /\
    sum_list ((fun ka => length (row_entries B (fst ka))) <$> row_entries A 0) <> 0.
Proof. exact flops_wraparound. Qed.
Print Assumptions C19_wraparound_refuted.
