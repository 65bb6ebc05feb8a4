(** Construction and conversion of compressed matrices: CSR.h, CSC.h and the helpers of utility.h.

    Simplifications.  Indices are unbounded naturals.  [my_malloc<T>(n)] fills the array with [T()]
    (utility.h 109-147, init = true), so a new index array holds 0 and a new value array holds
    [dflt].  malloc never fails; release of the local arrays is not tracked. *)
From Verif Require Export ParModel ScanModel KernelBase Spec.

(** std::copy(src, src + n, dst + off) between different arrays: CSR.h 125, 126, 130, 183, 215; CSC.h 256, 300, 444, 493 *)
Definition copyRange {A} (src : list A) (n : nat) (dst : list A) (off : nat) : res (list A) :=
  for_ 0 n (fun i d => x <- get src i ;; set_ d (off + i) x) dst.

(** [work[tmp]++]: CSR.h 175-178, 208-211; CSC.h 249-252, 290-294, 435-438, 487-490 *)
Definition bump (work : list nat) (k : nat) : res (list nat) :=
  x <- get work k ;; set_ work k (x + 1).

(** [CumulativeSum]: utility.h 58-67 *)
Definition cumulativeSum (arr : list nat) (size : nat) : res (list nat * nat) :=
  for_ 0 size (fun i '(arr, tempnz) =>
    prev <- get arr i ;;
    arr' <- set_ arr i tempnz ;;
    Ok (arr', tempnz + prev)) (arr, 0).

(** [ptr[n] = CumulativeSum(work, n); copy(work, work + n, ptr)]: CSR.h 182-183, 214-215; CSC.h 255-256,
    299-300, 441-444, 492-493.  Result: the changed [work] and the pointer array. *)
Definition pointers (work : list nat) (n : nat) : res (list nat * list nat) :=
  '(work, total) <- cumulativeSum work n ;;
  ptr <- set_ (replicate (n + 1) 0) n total ;;
  ptr <- copyRange work n ptr 0 ;;
  Ok (work, ptr).

Section Mat.
Context {V : Type} (dflt : V).

(** [ids[last = work[key]++] = id; values[last] = v]: CSR.h 189-190, 220-221; CSC.h 229-230 *)
Definition place2 (s : list nat * list nat * list V) (key id : nat) (v : V) : res (list nat * list nat * list V) :=
  let '(work, ids, vals) := s in
  last <- get work key ;;
  work' <- set_ work key (last + 1) ;;
  ids' <- set_ ids last id ;;
  vals' <- set_ vals last v ;;
  Ok (work', ids', vals').

(** CSR(const CSC&): CSR.h 167-195.  The loop bound csc.colptr[i + 1] is read once, the array does not
    change. *)
Definition csrOfCsc (B : csc V) : res (csr V) :=
  let nz := c_nnz B in
  let n := c_rows B in
  work <- for_ 0 nz (fun k w => r <- get (rowids B) k ;; bump w r) (replicate n 0) ;;
  if 0 <? nz then
    '(work, rp) <- pointers work n ;;
    '(work, ids, vals) <- for_ 0 (c_cols B) (fun i s =>
        b <- get (colptr B) i ;;
        e <- get (colptr B) (i + 1) ;;
        for_ b e (fun j s =>
          r <- get (rowids B) j ;;
          v <- get (c_values B) j ;;
          place2 s r i v) s)
      (work, replicate nz 0, replicate nz dflt) ;;
    Ok (mkCsr n (c_cols B) nz rp ids vals)
  else Ok (mkCsr n (c_cols B) nz (replicate (n + 1) 0) (replicate nz 0) (replicate nz dflt)).

(** CSR(const CSC&, bool transpose): CSR.h 197-241.  Without the flag the code is that of CSR(const
    CSC&); with it the arrays are copied. *)
Definition csrOfCscT (B : csc V) (transpose : bool) : res (csr V) :=
  if negb transpose then csrOfCsc B
  else
    rp <- copyRange (colptr B) (c_cols B + 1) (replicate (c_cols B + 1) 0) 0 ;;
    '(vals, ids) <- for_ 0 (c_nnz B) (fun k '(vals, ids) =>
        v <- get (c_values B) k ;;
        vals' <- set_ vals k v ;;
        r <- get (rowids B) k ;;
        ids' <- set_ ids k r ;;
        Ok (vals', ids'))
      (replicate (c_nnz B) dflt, replicate (c_nnz B) 0) ;;
    Ok (mkCsr (c_cols B) (c_rows B) (c_nnz B) rp ids vals).

(** Shared cells of the parallel loops below: an index, a value, a pair (element of the vector
    tosort).  CSR.h 660-690, CSC.h 258-274. *)
Inductive cellv := CN (n : nat) | CV (v : V) | CP (n : nat) (v : V).
Notation tprog := (prog loc cellv).

(** Reads of shared cells.  CSR.h 669-684. *)
Definition rdCN (l : loc) : tprog nat := Rd l (fun x => match x with CN n => Ret n | _ => Fail Uninit end).
(** A read of values[j]: CSR.h 669-684 *)
Definition rdCV (l : loc) : tprog V := Rd l (fun x => match x with CV v => Ret v | _ => Fail Uninit end).
(** A read of tosort[j]: CSC.h 258-274 *)
Definition rdCP (l : loc) : tprog (nat * V) := Rd l (fun x => match x with CP n v => Ret (n, v) | _ => Fail Uninit end).

(** The arrays: 0 = colids / rowids, 1 = values, 2 = tosort. *)
Definition aIds : nat := 0.
(** values: CSR.h 108-115 *)
Definition aVals : nat := 1.
(** tosort: CSR.h 669-684 *)
Definition aSort : nat := 2.

(** std::sort on a range of pairs; any function with the contract of std::sort is allowed (see the
    theorems). *)
Context (stdsort : list (nat * V) -> list (nat * V)).

(** Body of the row loop of [sortIds]: CSR.h 669-684 *)
Definition sortRow (rp : list nat) (i : nat) : tprog unit :=
  pbind (lift (get rp i)) (fun b =>
  pbind (lift (get rp (i + 1))) (fun e =>
  pbind (pfor b e (fun j tosort =>
           pbind (rdCN (aIds, j)) (fun c => pbind (rdCV (aVals, j)) (fun v => Ret (tosort ++ [(c, v)])))) []) (fun tosort =>
  pbind (pfor b e (fun j it =>
           match it with
           | [] => Fail OutOfBounds
           | (c, v) :: it' => Wr (aIds, j) (CN c) (Wr (aVals, j) (CV v) (Ret it'))
           end) (stdsort tosort)) (fun _ => Ret tt)))).

(** The index and value arrays of a matrix in shared memory.  CSR.h 108-115. *)
Definition arrays (ids : list nat) (vals : list V) : gmap loc cellv :=
  cells aIds (CN <$> ids) ∪ cells aVals (CV <$> vals).

(** [sortIds]: CSR.h 664-686.  The loop always ends and leaves the matrix [X']. *)
Definition sortIds_ends (X X' : csr V) : Prop :=
  parfor_ends (sortRow (rowptr X)) (rows X) (arrays (colids X) (values X)) (arrays (colids X') (values X')) /\
  rows X' = rows X /\ cols X' = cols X /\ nnz X' = nnz X /\ rowptr X' = rowptr X.

(** [my_is_sorted] on colids + b .. colids + e: utility.h 45-56 *)
Definition my_is_sorted (l : list nat) (b e : nat) : res bool :=
  if b =? e then Ok true
  else for_ (b + 1) e (fun j ok =>
         if negb ok then Ok false
         else x <- get l j ;; y <- get l (j - 1) ;; Ok (negb (x <? y))) true.
(** [Sorted]: CSR.h 459-466 (the printed flag); the same code over columns: CSC.h 515-523 *)
Definition sortedFlag (n : nat) (ptr ids : list nat) : res bool :=
  for_ 0 n (fun i ok =>
    b <- get ptr i ;;
    e <- get ptr (i + 1) ;;
    r <- my_is_sorted ids b e ;;
    Ok (ok && r)) true.

(** The vector tosort filled by the sequential loop: CSC.h 258-261, 446-449, 495-497.  [its] are the
    triples (row, column, value) of the argument. *)
Definition place1 (s : list nat * list (nat * V)) (key : nat) (x : nat * V) : res (list nat * list (nat * V)) :=
  let '(work, arr) := s in
  last <- get work key ;;
  work' <- set_ work key (last + 1) ;;
  arr' <- set_ arr last x ;;
  Ok (work', arr').

(** Body of the column loop: CSC.h 263-274, 451-461, 499-509.  std::sort is modelled as: read the
    range, write it back sorted. *)
Definition sortCol (cp : list nat) (i : nat) : tprog unit :=
  pbind (lift (get cp i)) (fun b =>
  pbind (lift (get cp (i + 1))) (fun e =>
  pbind (pfor b e (fun j l => pbind (rdCP (aSort, j)) (fun x => Ret (l ++ [x]))) []) (fun l =>
  pbind (pfor b e (fun j it =>
           match it with
           | [] => Fail OutOfBounds
           | (c, v) :: it' => Wr (aSort, j) (CP c v) (Ret it')
           end) (stdsort l)) (fun _ =>
  pfor b e (fun j _ => pbind (rdCP (aSort, j)) (fun x =>
    Wr (aIds, j) (CN (fst x)) (Wr (aVals, j) (CV (snd x)) (Ret tt)))) tt)))).

(** Before the column loop: CSC.h 239-261, 424-449, 475-497.  Result: column pointers and tosort. *)
Definition bucketItems (its : list (nat * nat * V)) (nz n : nat) : res (list nat * list (nat * V)) :=
  work <- for_ 0 nz (fun k w => '(_, c, _) <- get its k ;; bump w c) (replicate n 0) ;;
  '(work, cp) <- pointers work n ;;
  '(_, arr) <- for_ 0 nz (fun k s => '(r, c, v) <- get its k ;; place1 s c (r, v)) (work, replicate nz (0, dflt)) ;;
  Ok (cp, arr).

(** CSC(Triple*, nnz, m, n): CSC.h 237-278; CSC(vector<tuple>&, m, n, addop): CSC.h 416-470, where
    nnz = tuple.size() and addop is never called.  For nnz = 0 only the counting loop and the
    zero-filled arrays remain.  The construction always ends and yields [X]. *)
Definition cscOfItems_ends (its : list (nat * nat * V)) (nz m n : nat) (X : csc V) : Prop :=
  c_rows X = m /\ c_cols X = n /\ c_nnz X = nz /\
  if 0 <? nz then
    exists arr m', bucketItems its nz n = Ok (colptr X, arr) /\
    parfor_ends (sortCol (colptr X)) n
      (arrays (replicate nz 0) (replicate nz dflt) ∪ cells aSort ((fun x => CP (fst x) (snd x)) <$> arr)) m' /\
    arrays (rowids X) (c_values X) ⊆ m' /\ length (rowids X) = nz /\ length (c_values X) = nz
  else colptr X = replicate (n + 1) 0 /\ rowids X = replicate nz 0 /\ c_values X = replicate nz dflt.
(** CSC(ri, ci, val, nnz, m, n): CSC.h 473-512.  The assertion of line 476 first; then the code of
    [cscOfItems_ends] on the three parallel arrays. *)
Definition cscOfArrays_ends (ri ci : list nat) (val : list V) (nz m n : nat) (X : res (csc V)) : Prop :=
  if (nz =? 0) || (m =? 0) then X = Err AssertFail
  else exists Y, X = Ok Y /\ cscOfItems_ends (zip (zip ri ci) val) nz m n Y.
End Mat.
Arguments cellv : clear implicits.
