(** CSC.h: the constructor from an array of pairs (281-320) and [MergeDuplicates] (374-413).

    Simplifications, beside those of MatModel: indices are unbounded naturals (the pairs hold 64-bit integers that are
    converted to the index type); what is printed is left out. *)
From Verif Require Export MatModel.

(** ** CSC(vector<pair>, nnz, m, n): CSC.h 281-320 *)
Section Pairs.
Context {V : Type} (dflt one : V).
Notation tprog := (prog loc (cellv V)).

(** [rowids[work[colId]++] = rowId]: CSC.h 305 *)
Definition placeN (s : list nat * list nat) (key id : nat) : res (list nat * list nat) :=
  let '(work, ids) := s in
  last <- get work key ;;
  work' <- set_ work key (last + 1) ;;
  ids' <- set_ ids last id ;;
  Ok (work', ids').

(** Before the loop that sorts: CSC.h 285-306, for nnz > 0.  An edge is (row, column).  Result: the column pointers and
    the row ids. *)
Definition bucketPairs (edges : list (nat * nat)) (nz n : nat) : res (list nat * list nat) :=
  work <- for_ 0 nz (fun k w => '(_, c) <- get edges k ;; bump w c) (replicate n 0) ;;
  '(work, cp) <- pointers work n ;;
  '(_, ids) <- for_ 0 nz (fun k s => '(r, c) <- get edges k ;; placeN s c r) (work, replicate nz 0) ;;
  Ok (cp, ids).

(** std::sort on a range of row ids; any function with the contract of std::sort is allowed (see the theorems). *)
Context (ssort : list nat -> list nat).

(** Body of the loop that sorts, [sort(rowids + colptr[i], rowids + colptr[i+1])]: CSC.h 307-311.  std::sort is
    modelled as: read the range, write it back sorted. *)
Definition sortIdsCol (cp : list nat) (i : nat) : tprog unit :=
  pbind (lift (get cp i)) (fun b =>
  pbind (lift (get cp (i + 1))) (fun e =>
  pbind (pfor b e (fun j l => pbind (rdCN (aIds, j)) (fun c => Ret (l ++ [c]))) []) (fun l =>
  pbind (pfor b e (fun j it =>
           match it with
           | [] => Fail OutOfBounds
           | c :: it' => Wr (aIds, j) (CN c) (Ret it')
           end) (ssort l)) (fun _ => Ret tt)))).

(** Body of the last loop, [values[k] = (NT) 1]: CSC.h 313-317 *)
Definition setOne (k : nat) : tprog unit := Wr (aVals, k) (CV one) (Ret tt).

(** The constructor: CSC.h 281-320.  The construction always ends and yields [X].  For nnz = 0 only the counting loop
    over no edge and the zero-filled arrays remain. *)
Definition cscOfPairs_ends (edges : list (nat * nat)) (nz m n : nat) (X : csc V) : Prop :=
  c_rows X = m /\ c_cols X = n /\ c_nnz X = nz /\
  if 0 <? nz then
    exists ids m1 m2, bucketPairs edges nz n = Ok (colptr X, ids) /\
    parfor_ends (sortIdsCol (colptr X)) n (arrays ids (replicate nz dflt)) m1 /\
    parfor_ends setOne nz m1 m2 /\
    arrays (rowids X) (c_values X) = m2 /\ length (rowids X) = nz /\ length (c_values X) = nz
  else colptr X = replicate (n + 1) 0 /\ rowids X = replicate nz 0 /\ c_values X = replicate nz dflt.
End Pairs.

(** ** MergeDuplicates: CSC.h 374-413 *)
Section Merge.
Context {V : Type} (dflt : V) (add : V -> V -> V).

(** Shared cells: an element of rowids or values, a whole inner vector of v_rowids or v_values, an element of diff.
    CSC.h 377-411. *)
Inductive mcell := XI (r : nat) | XV (v : V) | MI (l : list nat) | MV (l : list V) | MD (d : nat).
Notation mprog := (prog loc mcell).
(** The vectors v_rowids and v_values (CSC.h 380-381) and diff (CSC.h 377); the new arrays rowids and values (CSC.h
    405-406) are 0 and 1 as in MatModel. *)
Definition aVR : nat := 2.
(** v_values: CSC.h 381 *)
Definition aVV : nat := 3.
(** diff: CSC.h 377 *)
Definition aDiff : nat := 4.
(** A read of v_rowids[i]: CSC.h 387, 410 *)
Definition rdMI (l : loc) : mprog (list nat) := Rd l (fun x => match x with MI r => Ret r | _ => Fail Uninit end).
(** A read of v_values[i]: CSC.h 388-390, 411 *)
Definition rdMV (l : loc) : mprog (list V) := Rd l (fun x => match x with MV r => Ret r | _ => Fail Uninit end).
(** A read of diff[i]: CSC.h 392 *)
Definition rdMD (l : loc) : mprog nat := Rd l (fun x => match x with MD r => Ret r | _ => Fail Uninit end).

(** std::adjacent_difference(colptr + 1, colptr + cols + 1, diff.begin()): CSC.h 377-378 *)
Definition adjacentDifference (cp : list nat) (n : nat) : res (list nat) :=
  for_ 0 n (fun k d =>
    x <- get cp (k + 1) ;;
    y <- (if k =? 0 then Ok 0 else get cp k) ;;
    set_ d k (x - y)) (replicate n 0).

(** The inner while loop, [e] = colptr[i + 1] > j, [acc] = v_values[i].back(), [d] = diff[i]: CSC.h 389-393.  Result:
    the last element of v_values[i], j and diff[i]. *)
Fixpoint mergeRun (fuel : nat) (ids : list nat) (vals : list V) (e j : nat) (acc : V) (d : nat) : res (V * nat * nat) :=
  match fuel with
  | 0 => Err OutOfFuel
  | S fuel =>
      if j <? e - 1 then
        x <- get ids j ;;
        y <- get ids (j + 1) ;;
        if x =? y then
          v <- get vals (j + 1) ;;
          mergeRun fuel ids vals e (j + 1) (add acc v) (d - 1)
        else Ok (acc, j, d)
      else Ok (acc, j, d)
  end.
(** The loop over the entries of a column: CSC.h 386-394 *)
Fixpoint mergeCol (fuel : nat) (ids : list nat) (vals : list V) (e j : nat) (rs : list nat) (vs : list V) (d : nat)
  : res (list nat * list V * nat) :=
  match fuel with
  | 0 => Err OutOfFuel
  | S fuel =>
      if j <? e then
        r <- get ids j ;;
        v <- get vals j ;;
        '(v, j, d) <- mergeRun (S (e - j)) ids vals e j v d ;;
        mergeCol fuel ids vals e (j + 1) (rs ++ [r]) (vs ++ [v]) d
      else Ok (rs, vs, d)
  end.

(** v_rowids[i] and v_values[i], where both vectors have [nv] elements: CSC.h 387-390, 410-411 *)
Definition inner (nv i : nat) : res unit := if i <? nv then Ok tt else Err OutOfBounds.

(** Body of the first column loop: CSC.h 384-395.  Simplifications: rowids, values and colptr, which no thread writes
    here, are read directly; the two vectors and the element of diff, which only this iteration accesses, are read
    before the loop over the entries and written back after it. *)
Definition mergeBody (nv : nat) (X : csc V) (i : nat) : mprog unit :=
  pbind (lift (get (colptr X) i)) (fun b =>
  pbind (lift (get (colptr X) (i + 1))) (fun e =>
  if b <? e then
    pbind (lift (inner nv i)) (fun _ =>
    pbind (rdMI (aVR, i)) (fun rs =>
    pbind (rdMV (aVV, i)) (fun vs =>
    pbind (rdMD (aDiff, i)) (fun d =>
    pbind (lift (mergeCol (S (e - b)) (rowids X) (c_values X) e b rs vs d)) (fun '(rs, vs, d) =>
    Wr (aVR, i) (MI rs) (Wr (aVV, i) (MV vs) (Wr (aDiff, i) (MD d) (Ret tt))))))))
  else Ret tt)).

(** [colptr[cols] = CumulativeSum(diff.data(), cols); copy(diff.begin(), diff.end(), colptr)]: CSC.h 397-398.  Result:
    the new colptr. *)
Definition newPtr (cp diff : list nat) (n : nat) : res (list nat) :=
  '(diff, total) <- cumulativeSum diff n ;;
  cp <- set_ cp n total ;;
  copyRange diff n cp 0.

(** std::copy of a whole inner vector to [a] + b: CSC.h 410, 411 *)
Definition copyOut {A} (inj : A -> mcell) (a b : nat) (l : list A) : mprog unit :=
  pbind (pfor b (b + length l) (fun p it =>
           match it with
           | [] => Fail OutOfBounds
           | x :: it' => Wr (a, p) (inj x) (Ret it')
           end) l) (fun _ => Ret tt).
(** Body of the last loop: CSC.h 408-412 *)
Definition copyBody (nv : nat) (cp : list nat) (i : nat) : mprog unit :=
  pbind (lift (inner nv i)) (fun _ =>
  pbind (rdMI (aVR, i)) (fun rs =>
  pbind (lift (get cp i)) (fun b =>
  pbind (copyOut XI aIds b rs) (fun _ =>
  pbind (rdMV (aVV, i)) (fun vs =>
  copyOut XV aVals b vs))))).

(** What the parallel loops share before the first one: CSC.h 377-381 *)
Definition mergeMem (nv : nat) (diff : list nat) : gmap loc mcell :=
  cells aVR (replicate nv (MI [])) ∪ (cells aVV (replicate nv (MV [])) ∪ cells aDiff (MD <$> diff)).
(** The new arrays: CSC.h 405-406 *)
Definition newArrays (ids : list nat) (vals : list V) : gmap loc mcell := cells aIds (XI <$> ids) ∪ cells aVals (XV <$> vals).

(** [MergeDuplicates] where v_rowids and v_values have [nv] elements: CSC.h 374-413.  It always ends and leaves [X']. *)
Definition mergeN_ends (nv : nat) (X X' : csc V) : Prop :=
  c_rows X' = c_rows X /\ c_cols X' = c_cols X /\
  exists diff diff1 m1 m2, adjacentDifference (colptr X) (c_cols X) = Ok diff /\
  (if 0 <? c_nnz X then parfor_ends (mergeBody nv X) (c_cols X) (mergeMem nv diff) m1 else m1 = mergeMem nv diff) /\
  cells aDiff (MD <$> diff1) ⊆ m1 /\ length diff1 = c_cols X /\
  newPtr (colptr X) diff1 (c_cols X) = Ok (colptr X') /\
  colptr X' !! c_cols X = Some (c_nnz X') /\
  parfor_ends (copyBody nv (colptr X')) (c_cols X)
    (newArrays (replicate (c_nnz X') 0) (replicate (c_nnz X') dflt) ∪ m1) m2 /\
  newArrays (rowids X') (c_values X') ⊆ m2 /\ length (rowids X') = c_nnz X' /\ length (c_values X') = c_nnz X'.
(** The function as written: v_rowids and v_values are never given a size.  CSC.h 380-381. *)
Definition mergeDuplicates_ends : csc V -> csc V -> Prop := mergeN_ends 0.
End Merge.
Arguments mcell : clear implicits.
