(** C06, C07, C12 (heap), C22: the binary heap and the heap row kernels. *)
From Verif Require Import Base Spec HeapModel HeapProofs HeapStatements HeapQueue Examples.

(** C06: plain mask, every Inspect setting for which maskIdx + Inspect does not wrap around 2^64.
    The row [l] depends on the matrices only, not on the heap's capacity or the output position.
    [heapNumericRow] leaves the heap empty. *)
Theorem C06_heap_numeric_row :
  forall V (mul add : V -> V -> V) itmax (insp : N) (A B M : csr V) row,
  compatible A B M -> row < rows A -> sorted_rows B -> StronglySorted lt (row_cols M row) ->
  row_cols M row <> [] -> cols B <= itmax ->
  (insp < 2 \/ insp = 2 ^ 64 - 1 \/ N.of_nat (nnz M) + insp < 2 ^ 64)%N ->
  exists l, fst <$> l = fst <$> spec_row mul add A B M row /\
    (forall j v, (j, v) ∈ l -> sum_in_some_order mul add A B row j v) /\
    forall h dn cap, hp h = [] -> length (row_entries A row) <= hcap h ->
      length dn + length (spec_row mul add A B M row) <= cap ->
      exists h', heapNumericRow mul add itmax insp A B M row h (mkOut dn cap) = Ok (h', mkOut (dn ++ l) cap) /\
        hp h' = [] /\ hcap h' = hcap h /\ hmax h <= hmax h' <= Nat.max (hmax h) (hcap h).
Proof. exact @heapNumericRow_correct. Qed.
Print Assumptions C06_heap_numeric_row.

(** C06 for an associative and commutative addition: exactly the specified row. *)
Theorem C06_heap_numeric_row_AC :
  forall V (mul add : V -> V -> V) itmax (insp : N) (A B M : csr V) row,
  (forall a b, add a b = add b a) -> (forall a b c, add a (add b c) = add (add a b) c) ->
  compatible A B M -> row < rows A -> sorted_rows B -> StronglySorted lt (row_cols M row) ->
  row_cols M row <> [] -> cols B <= itmax ->
  (insp < 2 \/ insp = 2 ^ 64 - 1 \/ N.of_nat (nnz M) + insp < 2 ^ 64)%N ->
  forall h dn cap, hp h = [] -> length (row_entries A row) <= hcap h ->
    length dn + length (spec_row mul add A B M row) <= cap ->
    exists h', heapNumericRow mul add itmax insp A B M row h (mkOut dn cap) =
        Ok (h', mkOut (dn ++ spec_row mul add A B M row) cap) /\
      hp h' = [] /\ hcap h' = hcap h /\ hmax h <= hmax h' <= Nat.max (hmax h) (hcap h).
Proof. exact @heapNumericRow_AC. Qed.
Print Assumptions C06_heap_numeric_row_AC.

(** Row 0 of the example, with the four kinds of Inspect; row 2 has a mask past B's columns. *)
Example C06_example :
  Forall (fun insp => insp_ok insp (nnz exM) /\
    rmapsnd (heapNumericRow Z.mul Z.add 100 insp exA exB exM 0 (heap_clean 2 0) (mkOut [] 2)) =
      Ok (mkOut [0 ~> -4; 1 ~> 18] 2) /\
    rmapsnd (heapNumericRow Z.mul Z.add 100 insp exA exB exM 2 (heap_clean 2 0) (mkOut [] 1)) =
      Ok (mkOut [3 ~> -1] 1)) [0; 1; 2; 5; 2 ^ 64 - 1]%N /\
  spec_row Z.mul Z.add exA exB exM 0 = [0 ~> -4; 1 ~> 18].
Proof.
  split; [|vm_compute; reflexivity].
  repeat constructor; try (vm_compute; reflexivity); unfold insp_ok; simpl; lia.
Qed.

(** The order clause is needed: with subtraction the heap kernel's value differs from the
    left-to-right fold (and from every other kernel's value). *)
Theorem C06_heap_order_refuted :
  exists (A B M : csr Z) row, compatible A B M /\ sorted_rows A /\ sorted_rows B /\ sorted_rows M /\ row < rows A /\
    rmapsnd (heapNumericRow Z.mul Z.sub 100 0 A B M row (heap_clean 3 0) (mkOut [] 2)) <>
      Ok (mkOut (spec_row Z.mul Z.sub A B M row) 2).
Proof. exact heap_order_refuted. Qed.
Print Assumptions C06_heap_order_refuted.

(** Without the bound on Inspect the look-ahead position wraps around and, with a maskStop that is
    never reached, the search runs off the mask row. *)
Theorem C06_inspect_wrap_refuted :
  exists (A B M : csr Z) (insp : N) row, (insp < 2 ^ 64)%N /\ compatible A B M /\ sorted_rows A /\ sorted_rows B /\
    sorted_rows M /\ row < rows A /\ row_cols M row <> [] /\
    heapNumericRow Z.mul Z.add 100 insp A B M row (heap_clean 2 0) (mkOut [] 2) = Err OutOfBounds.
Proof. exact heap_wrap_refuted. Qed.
Print Assumptions C06_inspect_wrap_refuted.

(** C12 (heap, plain mask). *)
Theorem C12_heap_symbolic_row :
  forall V (mul add : V -> V -> V) itmax (insp : N) (A B M : csr V) row,
  compatible A B M -> row < rows A -> sorted_rows B -> StronglySorted lt (row_cols M row) ->
  row_cols M row <> [] -> cols B <= itmax ->
  (insp < 2 \/ insp = 2 ^ 64 - 1 \/ N.of_nat (nnz M) + insp < 2 ^ 64)%N ->
  forall h, hp h = [] -> length (row_entries A row) <= hcap h ->
  exists h', heapSymbolicRow itmax insp A B M row h = Ok (h', length (spec_row mul add A B M row)) /\
    hp h' = [] /\ hcap h' = hcap h /\ hmax h <= hmax h' <= Nat.max (hmax h) (hcap h).
Proof. exact @heapSymbolicRow_correct. Qed.
Print Assumptions C12_heap_symbolic_row.

Example C12_heap_example :
  rmapsnd (heapSymbolicRow 100 3 exA exB exM 0 (heap_clean 2 0)) = Ok 2.
Proof. vm_compute. reflexivity. Qed.

(** C07: complemented mask, non-empty mask row. *)
Theorem C07_heap_numeric_row_complemented :
  forall V (mul add : V -> V -> V) itmax (A B M : csr V) row,
  compatible A B M -> row < rows A -> sorted_rows B -> StronglySorted lt (row_cols M row) ->
  row_cols M row <> [] -> cols B <= itmax ->
  exists l, StronglySorted lt (fst <$> l) /\
    (forall j, j ∈ fst <$> l <-> j ∈ compl_cols A B M row) /\
    (forall j v, (j, v) ∈ l -> sum_in_some_order mul add A B row j v) /\
    forall h dn cap, hp h = [] -> length (row_entries A row) <= hcap h ->
      length dn + length (compl_cols A B M row) <= cap ->
      exists h', heapNumericRowC mul add itmax A B M row h (mkOut dn cap) = Ok (h', mkOut (dn ++ l) cap) /\
        hp h' = [] /\ hcap h' = hcap h /\ hmax h <= hmax h' <= Nat.max (hmax h) (hcap h).
Proof. exact @heapNumericRowC_correct. Qed.
Print Assumptions C07_heap_numeric_row_complemented.

(** C07 for an associative and commutative addition: the entries of the product outside the mask. *)
Theorem C07_heap_numeric_row_complemented_AC :
  forall V (mul add : V -> V -> V) itmax (A B M : csr V) row,
  (forall a b, add a b = add b a) -> (forall a b c, add a (add b c) = add (add a b) c) ->
  compatible A B M -> row < rows A -> sorted_rows B -> StronglySorted lt (row_cols M row) ->
  row_cols M row <> [] -> cols B <= itmax ->
  exists l, is_compl_row mul add A B M row l /\ StronglySorted lt (fst <$> l) /\
    forall h dn cap, hp h = [] -> length (row_entries A row) <= hcap h ->
      length dn + length (compl_cols A B M row) <= cap ->
      exists h', heapNumericRowC mul add itmax A B M row h (mkOut dn cap) = Ok (h', mkOut (dn ++ l) cap) /\
        hp h' = [] /\ hcap h' = hcap h /\ hmax h <= hmax h' <= Nat.max (hmax h) (hcap h).
Proof. exact @heapNumericRowC_AC. Qed.
Print Assumptions C07_heap_numeric_row_complemented_AC.

Example C07_example :
  rmapsnd (heapNumericRowC Z.mul Z.add 100 exA exB exM 0 (heap_clean 2 0) (mkOut [] 1)) = Ok (mkOut [3 ~> 11] 1) /\
  rmapsnd (heapNumericRowC Z.mul Z.add 100 exA exB exM 2 (heap_clean 2 0) (mkOut [] 2)) =
    Ok (mkOut [0 ~> 2; 1 ~> 29] 2).
Proof. split; vm_compute; reflexivity. Qed.

(** Finding: with an empty mask row, for which the complement keeps every product, the complemented
    heap kernels stop at their assertion. *)
Theorem C07_heap_empty_mask_refuted :
  exists (A B M : csr Z) row, compatible A B M /\ sorted_rows A /\ sorted_rows B /\ sorted_rows M /\ row < rows A /\
    compl_cols A B M row <> [] /\
    heapNumericRowC Z.mul Z.add 100 A B M row (heap_clean 2 0) (mkOut [] 2) = Err AssertFail /\
    heapSymbolicRowC 100 A B M row (heap_clean 2 0) = Err AssertFail.
Proof. exact heap_empty_mask_refuted. Qed.
Print Assumptions C07_heap_empty_mask_refuted.

(** C12 (heap, complemented mask). *)
Theorem C12_heap_symbolic_row_complemented :
  forall V itmax (A B M : csr V) row,
  compatible A B M -> row < rows A -> sorted_rows B -> StronglySorted lt (row_cols M row) ->
  row_cols M row <> [] -> cols B <= itmax ->
  forall h, hp h = [] -> length (row_entries A row) <= hcap h ->
  exists h', heapSymbolicRowC itmax A B M row h = Ok (h', length (compl_cols A B M row)) /\
    hp h' = [] /\ hcap h' = hcap h /\ hmax h <= hmax h' <= Nat.max (hmax h) (hcap h).
Proof. exact @heapSymbolicRowC_ok. Qed.
Print Assumptions C12_heap_symbolic_row_complemented.

Example C12_heap_example_complemented :
  rmapsnd (heapSymbolicRowC 100 exA exB exM 2 (heap_clean 2 0)) = Ok 2.
Proof. vm_compute. reflexivity. Qed.

(** C22: after make, any sequence of pops and root replacements behaves as on a priority queue: each
    top read is a minimum of the entries held, and the entries held change by exactly that entry. *)
Theorem C22_heap_is_priority_queue :
  forall h ops, exists h1 ts h2, h_make h = Ok h1 /\ qrun h1 ops = Ok (ts, h2) /\
    hp h1 ≡ₚ hp h /\ pq (hp h1) ops ts (hp h2) /\ hcap h2 = hcap h.
Proof. exact heap_is_queue. Qed.
Print Assumptions C22_heap_is_priority_queue.

Example C22_example :
  let e k := mkEnt k k 0 in
  (h1 <- h_make (mkHeap (e <$> [5;3;9;1;7;3]) 8 0) ;; r <- qrun h1 [QPop; QReplace (e 6); QReplace (e 4); QDrop (e 0); QPop; QPop; QPop; QPop; QPop] ;;
   Ok (ek <$> fst r, hp (snd r))) = Ok ([1;3;3;4;5;6;7;9], []).
Proof. vm_compute. reflexivity. Qed.
