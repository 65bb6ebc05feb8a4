(** Intersect (CSR.h) and intersect (CSC.h).

    Simplifications.  Indices are unbounded naturals apart from [top] (the largest value of the index type,
    which [N - 1] wraps to in the prefix sum).  [my_malloc] fills with [T()] as in MatModel.v.  The field
    zerobased is copied from A and not kept here.  A row's two vectors are only used by the iteration of
    that row; the iteration reads them once, collects its push_backs and stores them once. *)
From Verif Require Import Spec KernelBase.
From Verif Require Export ParModel ScanModel LegacyScanModel.

Section Isect.
Context {V : Type} (dflt : V) (addop : V -> V -> V) (top : nat).

(** Shared cells: an index, a value, a vector of indices, a vector of values.  CSR.h 702-705, 733-734 *)
Inductive icell := XN (n : nat) | XV (v : V) | XIs (l : list nat) | XVs (l : list V).
Notation tprog := (prog loc icell).

(** Reads of the vectors of a row.  vec_colids[i]: CSR.h 725, 738. *)
Definition rdIs (l : loc) : tprog (list nat) := Rd l (fun x => match x with XIs n => Ret n | _ => Fail Uninit end).
(** vec_values[i]: CSR.h 739 *)
Definition rdVs (l : loc) : tprog (list V) := Rd l (fun x => match x with XVs v => Ret v | _ => Fail Uninit end).

(** The arrays: C.colids, C.values, vec_colids, vec_values, row_nz.  CSR.h 703-705, 733-734 *)
Definition xIds : nat := 0.
(** C.values: CSR.h 734 *)
Definition xVals : nat := 1.
(** vec_colids: CSR.h 704 *)
Definition xVecI : nat := 2.
(** vec_values: CSR.h 705 *)
Definition xVecV : nat := 3.
(** row_nz: CSR.h 703 *)
Definition xRowNz : nat := 4.

(** The while loop over one row: CSR.h 714-724.  The third branch also covers columns that compare neither
    less nor greater, that is, equal ones. *)
Fixpoint isectLoop (fuel : nat) (A B : csr V) (acur aend bcur bend : nat) (ids : list nat) (vals : list V) : res (list nat * list V) :=
  match fuel with
  | O => Err OutOfFuel
  | S fuel' =>
    if negb (acur =? aend) && negb (bcur =? bend) then
      a <- get (colids A) acur ;;
      b <- get (colids B) bcur ;;
      if a <? b then isectLoop fuel' A B (acur + 1) aend bcur bend ids vals
      else if b <? a then isectLoop fuel' A B acur aend (bcur + 1) bend ids vals
      else
        x <- get (values A) acur ;;
        y <- get (values B) bcur ;;
        isectLoop fuel' A B (acur + 1) aend (bcur + 1) bend (ids ++ [a]) (vals ++ [addop x y])
    else Ok (ids, vals)
  end.

(** Body of the first parallel loop: CSR.h 709-726.  The fuel is one more than the number of steps the loop
    can make when both ranges are ascending. *)
Definition isectRow (A B : csr V) (i : nat) : tprog unit :=
  pbind (lift (get (rowptr A) i)) (fun acur =>
  pbind (lift (get (rowptr A) (i + 1))) (fun aend =>
  pbind (lift (get (rowptr B) i)) (fun bcur =>
  pbind (lift (get (rowptr B) (i + 1))) (fun bend =>
  pbind (rdIs (xVecI, i)) (fun ids =>
  pbind (rdVs (xVecV, i)) (fun vals =>
  pbind (lift (isectLoop (S ((aend - acur) + (bend - bcur))) A B acur aend bcur bend ids vals)) (fun r =>
  Wr (xVecI, i) (XIs (fst r)) (Wr (xVecV, i) (XVs (snd r)) (Wr (xRowNz, i) (XN (length (fst r))) (Ret tt)))))))))).

(** Memory before and contents after that loop: CSR.h 703-705 *)
Definition vecMem (is : list (list nat)) (vs : list (list V)) : gmap loc icell :=
  cells xVecI (XIs <$> is) ∪ cells xVecV (XVs <$> vs).
(** The three arrays of the first loop: CSR.h 703-705 *)
Definition isectMem (is : list (list nat)) (vs : list (list V)) (nz : list nat) : gmap loc icell :=
  vecMem is vs ∪ cells xRowNz (XN <$> nz).

(** [std::copy(v.begin(), v.end(), dst + off)]: CSR.h 738, 739 *)
Definition copyOut {X} (a : nat) (cell : X -> icell) (l : list X) (off : nat) : tprog unit :=
  pbind (pfor_n (length l) off (fun j it =>
     match it with
     | [] => Fail OutOfBounds
     | x :: it' => Wr (a, j) (cell x) (Ret it')
     end) l) (fun _ => Ret tt).

(** Body of the second parallel loop: CSR.h 737-740 *)
Definition isectCopy (rp : list nat) (i : nat) : tprog unit :=
  pbind (rdIs (xVecI, i)) (fun ids =>
  pbind (lift (get rp i)) (fun off =>
  pbind (copyOut xIds XN ids off) (fun _ =>
  pbind (rdVs (xVecV, i)) (fun vals =>
  pbind (lift (get rp i)) (fun off =>
  copyOut xVals XV vals off))))).

(** Memory of that loop: CSR.h 733-734 *)
Definition copyMem (ids : list nat) (vals : list V) (is : list (list nat)) (vs : list (list V)) : gmap loc icell :=
  cells xIds (XN <$> ids) ∪ cells xVals (XV <$> vals) ∪ vecMem is vs.

(** [Intersect(A, B, addop)] (CSR.h 690-742), the prefix sum run by [nt] threads, always ends and returns
    [r]; [None] stands for the default-constructed matrix returned for different shapes. *)
Definition intersect_ends (nt : nat) (A B : csr V) (r : option (csr V)) : Prop :=
  if negb (rows A =? rows B) || negb (cols A =? cols B) then r = None
  else exists C is vs nz, r = Some C /\
    rows C = rows A /\ cols C = cols A /\
    parfor_ends (isectRow A B) (rows A) (isectMem (replicate (rows A) []) (replicate (rows A) []) (replicate (rows A) 0)) (isectMem is vs nz) /\
    lScan_always 0 Nat.add top nz (rows A + 1) nt (replicate (rows A + 1) (Some 0)) (Some <$> rowptr C) /\
    get (rowptr C) (rows A) = Ok (nnz C) /\
    parfor_ends (isectCopy (rowptr C)) (rows A) (copyMem (replicate (nnz C) 0) (replicate (nnz C) dflt) is vs)
      (copyMem (colids C) (values C) is vs).

(** CSC<IT,NT>::intersect, one column: CSC.h 583-610.  The values of maxlen and r are not used. *)
Fixpoint cscIsectLoop (fuel : nat) (ids_in : list nat) (vals_in : list V) (len_in : nat) (ri : list nat) (len_ri j k idx : nat)
    (ids_out : list nat) (vals_out : list V) : res (list nat * list V * nat) :=
  match fuel with
  | O => Err OutOfFuel
  | S fuel' =>
    if (j <? len_in) && (k <? len_ri) then
      r <- get ri k ;;
      x <- get ids_in j ;;
      if r <? x then cscIsectLoop fuel' ids_in vals_in len_in ri len_ri j (k + 1) idx ids_out vals_out
      else if x <? r then cscIsectLoop fuel' ids_in vals_in len_in ri len_ri (j + 1) k idx ids_out vals_out
      else
        v <- get vals_in j ;;
        vals' <- set_ vals_out idx v ;;
        ids' <- set_ ids_out idx x ;;
        cscIsectLoop fuel' ids_in vals_in len_in ri len_ri (j + 1) (k + 1) (idx + 1) ids' vals'
    else Ok (ids_out, vals_out, idx)
  end.
(** The whole function; the last component is [*len_out].  CSC.h 592-606 *)
Definition cscIntersect (ids_in : list nat) (vals_in : list V) (len_in : nat) (ri : list nat) (len_ri : nat)
    (ids_out : list nat) (vals_out : list V) : res (list nat * list V * nat) :=
  cscIsectLoop (S (len_in + len_ri)) ids_in vals_in len_in ri len_ri 0 0 0 ids_out vals_out.
End Isect.
Arguments icell : clear implicits.
