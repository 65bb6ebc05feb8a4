(** The parallel drivers: spgemm-blocks/masked-spgemm.h and the output helpers of
    spgemm-blocks/common.h (initC, setRowOffsets, copyValuesToC), over shared memory.

    Simplifications.  The per-row flop counts and their prefix sums are written before the region and
    only read in it, so they are lists here.  Index arithmetic is unbounded (wrap-around of the flop
    count is treated in WorkModel).  malloc never fails.  Memory of the freed local arrays is not
    tracked.  Where a kernel writes entries of the output, the stores of one row reach shared memory
    when the row's kernel call returns; the cells are written by this thread only (proved). *)
From Verif Require Import MemModel.
From Verif Require Export WorkModel.

(** Objects of type CSR (or CSC, for the right operand of the inner-product drivers).  [OFresh]:
    an object whose arrays have just been replaced (initC); the new arrays are shared cells.
    CSR.h 108-115, CSC.h 93-100; common.h 152-166. *)
Inductive obj (V : Type) :=
| OMat (X : csr V)
| OCsc (X : csc V)
| OFresh (nrows ncols nn : nat).
Arguments OMat {V} _.
Arguments OCsc {V} _.
Arguments OFresh {V} _ _ _.

(** Contents of a shared cell: never written, an index, a value.
    The arrays of masked-spgemm.h 37-38, 119-120 and common.h 159-165, which my_malloc does not clear. *)
Inductive val (V : Type) := VU | VN (n : nat) | VV (v : V).
Arguments VU {V}.
Arguments VN {V} _.
Arguments VV {V} _.

(** The shared arrays: rowNvals, threadsNvals (masked-spgemm.h:37-38,119-120) and the arrays of the
    output object: rowptr, colids, values (common.h:159-165). *)
Definition aNv : nat := 0.
(** threadsNvals: masked-spgemm.h 38, 120 *)
Definition aTn : nat := 1.
(** C.rowptr: common.h 161-163 *)
Definition aRp : nat := 2.
(** C.colids: common.h 164 *)
Definition aCi : nat := 3.
(** C.values: common.h 165 *)
Definition aVa : nat := 4.

(** Arguments of a row algorithm's constructor: maxIndex, maxRowSizeA, maxRowSizeM, maxRowFlops
    (masked-spgemm.h:56,138). *)
Record params := mkParams { pIdx : nat; pA : nat; pM : nat; pF : nat }.

(** What the drivers use of a row algorithm (template parameter RowAlgorithm): its static flags, the
    constructor followed by getMemoryRequirement, and for the symbolic and the numeric accumulator
    setBuffer, the row function and releaseBuffer (masked-spgemm.h:48-79,130-174).  Not used by the
    drivers and left out: releaseBuffer of the numeric accumulator, whose result is overwritten or
    dropped (masked-spgemm.h:79,174). *)
Record rowalg (V : Type) := mkRowalg {
  ra_compl : bool; ra_calcA : bool; ra_calcM : bool; ra_calcF : bool;
  ra_S : Type; ra_N : Type;
  ra_req : params -> res (N * N);
  ra_sset : params -> buf -> res ra_S;
  ra_srow : csr V -> csr V -> csr V -> nat -> nat -> ra_S -> res (ra_S * nat);
  ra_srel : ra_S -> buf;
  ra_nset : params -> buf -> res ra_N;
  ra_nrow : csr V -> csr V -> csr V -> nat -> nat -> ra_N -> out V -> res (ra_N * out V) }.
Arguments ra_compl {V} _.
Arguments ra_calcA {V} _.
Arguments ra_calcM {V} _.
Arguments ra_calcF {V} _.
Arguments ra_S {V} _.
Arguments ra_N {V} _.
Arguments ra_req {V} _ _.
Arguments ra_sset {V} _ _ _.
Arguments ra_srow {V} _ _ _ _ _ _ _.
Arguments ra_srel {V} _ _.
Arguments ra_nset {V} _ _ _.
Arguments ra_nrow {V} _ _ _ _ _ _ _ _.

(** What malloc returns to thread [t]: an address and the bytes found there.  util.h 20-33. *)
Definition scratch : Type := nat -> N * (N -> bool).
(** [mallocAligned(bufferSize, bufferAlignment); dirty = bufferSize] (masked-spgemm.h:58-59,140-141).
    The alignment of the size_t header written in front of the block is the subject of
    [MemModel.mallocAligned]; here only the returned block matters. *)
Definition allocBuf (sc : scratch) (t : nat) (req : N * N) : buf :=
  mkBuf (maPtr (fst (sc t)) (snd req)) (fst req) (fst req) (snd (sc t)).

Section Driver.
Context {V : Type}.
Notation store := (gmap nat (obj V)).
Notation mem := (gmap loc (val V)).
Notation tprog := (prog loc (val V)).

(** Access to a matrix through a reference (const CSR &A etc.); its arrays must not have been
    replaced.  masked-spgemm.h 18, 98. *)
Definition deref (e : store) (i : nat) : res (csr V) :=
  match e !! i with
  | Some (OMat X) => Ok X
  | Some (OFresh _ _ _) => Err UseAfterFree
  | Some (OCsc _) => Err AssertFail
  | None => Err OutOfBounds
  end.
(** Access to const CSC &B: masked-spgemm-inner.h 8 *)
Definition deref_csc (e : store) (i : nat) : res (csc V) :=
  match e !! i with
  | Some (OCsc X) => Ok X
  | Some (OFresh _ _ _) => Err UseAfterFree
  | Some (OMat _) => Err AssertFail
  | None => Err OutOfBounds
  end.
(** C.rows and C.nnz of the output object inside the region.  common.h 168-185. *)
Definition fresh_dims (e : store) (i : nat) : res (nat * nat) :=
  match e !! i with Some (OFresh r _ n) => Ok (r, n) | _ => Err UseAfterFree end.

(** Read of an index cell whose value is used.  E.g. threadsNvals[i], common.h 171-172. *)
Definition rdN (l : loc) : tprog nat :=
  Rd l (fun v => match v with VN n => Ret n | _ => Fail Uninit end).

(** common.h:152-166 initC, executed by the master thread: nrows and ncols are read first, then the
    output's storage is released and replaced.  [ncolsB] is B.cols (B is a CSR or a CSC matrix). *)
Definition colsOf (e : store) (iB : nat) : res nat :=
  match e !! iB with
  | Some (OMat X) => Ok (cols X)
  | Some (OCsc X) => Ok (c_cols X)
  | Some (OFresh _ c _) => Ok c
  | None => Err OutOfBounds
  end.
(** initC: common.h 152-166 *)
Definition initC (iA iB iC nt : nat) (e : store) (m : mem) : res (store * mem) :=
  A <- deref e iA ;;
  let nrows := rows A in
  ncols <- colsOf e iB ;;
  nn <- for_ 0 nt (fun t s => match m !! (aTn, t) with Some (VN x) => Ok (s + x) | Some _ => Err Uninit | None => Err OutOfBounds end) 0 ;;
  Ok (<[iC := OFresh nrows ncols nn]> e,
      cells aRp (replicate (nrows + 1) VU) ∪ cells aCi (replicate nn VU) ∪ cells aVa (replicate nn VU) ∪ m).

(** common.h:169-179 setRowOffsets; [nrows] is C.rows *)
Definition setRowOffsets (nrows nt rb re t : nat) : tprog unit :=
  pbind (pfor 0 t (fun i acc => pbind (rdN (aTn, i)) (fun x => Ret (acc + x))) 0) (fun off =>
  pbind (pfor rb re (fun i off => Wr (aRp, i) (VN off) (pbind (rdN (aNv, i)) (fun n => Ret (off + n)))) off) (fun off =>
  if t =? nt - 1 then Wr (aRp, nrows) (VN off) (Ret tt) else Ret tt)).

(** std::copy into array [a] from position [base]; nothing is stored for an empty range, so the
    position is then not used.  common.h 183-184. *)
Fixpoint storeAt (a base : nat) (l : list (val V)) : tprog unit :=
  match l with [] => Ret tt | x :: l' => Wr (a, base) x (storeAt a (S base) l') end.
(** The copy to the position that was read, C.rowptr[rowBeginIdx]: common.h 182-184 *)
Definition copyTo (a : nat) (pos : val V) (l : list (val V)) : tprog unit :=
  match l with
  | [] => Ret tt
  | _ => match pos with VN base => storeAt a base l | _ => Fail Uninit end
  end.

(** common.h:181-185 copyValuesToC *)
Definition copyValuesToC (rb : nat) (local : list (nat * V)) (threadNvals : nat) : tprog unit :=
  if length local <? threadNvals then Fail OutOfBounds else
  let local := take threadNvals local in
  Rd (aRp, rb) (fun p => pbind (copyTo aCi p ((fun e => VN (fst e)) <$> local)) (fun _ =>
  Rd (aRp, rb) (fun q => copyTo aVa q ((fun e => VV (snd e)) <$> local)))).

(** A thread's private variables that live across barriers.  masked-spgemm.h 45, 62-65. *)
Record t1 := mkT1 { t1_rb : nat; t1_re : nat; t1_out : list (nat * V) }.

Section OnePhase.
Context (alg : rowalg V) (iA iB iM iC nt : nat) (sc : scratch) (flops cum : list nat) (total : nat).

(** masked-spgemm.h:69-77, one row *)
Definition row1p (A B M : csr V) (row : nat) (s : ra_N alg * out V) : tprog (ra_N alg * out V) :=
  let '(acc, o) := s in
  pbind (lift (get flops row)) (fun f =>
  if f =? 0 then Wr (aNv, row) (VN 0) (Ret (acc, o))
  else pbind (lift (ra_nrow alg A B M row f acc o)) (fun r =>
       Wr (aNv, row) (VN (length (o_done (snd r)) - length (o_done o))) (Ret r))).

(** masked-spgemm.h:42-79 *)
Definition numeric1p (e : store) (t : nat) : tprog t1 :=
  pbind (lift (deref e iA)) (fun A => pbind (lift (deref e iB)) (fun B => pbind (lift (deref e iM)) (fun M =>
  pbind (lift (distributeWork total cum (rows A) nt t)) (fun '(rb, re) =>
  pbind (lift (scanInputs (ra_compl alg) true (ra_calcA alg) (ra_calcM alg) (ra_calcF alg) rb re flops A M))
    (fun '(sizeC, maxA, maxM, maxF) =>
  let p := mkParams (cols B) maxA maxM maxF in
  pbind (lift (ra_req alg p)) (fun req =>
  pbind (lift (ra_nset alg p (allocBuf sc t req))) (fun acc =>
  pbind (pfor rb re (row1p A B M) (acc, mkOut [] sizeC)) (fun '(_, o) =>
  Wr (aTn, t) (VN (length (o_done o))) (Ret (mkT1 rb re (o_done o))))))))))).

(** masked-spgemm.h:87-88 *)
Definition output1p (e : store) (t : nat) (s : t1) : tprog t1 :=
  pbind (lift (fresh_dims e iC)) (fun '(nrows, _) =>
  pbind (setRowOffsets nrows nt (t1_rb s) (t1_re s) t) (fun _ =>
  pbind (rdN (aTn, t)) (fun n =>
  pbind (copyValuesToC (t1_rb s) (t1_out s) n) (fun _ => Ret s)))).

(** masked-spgemm.h:40-92 *)
Definition region1p : list (phase loc (val V) store t1) :=
  [PPar (fun e t _ => numeric1p e t);
   PMaster (fun _ e m => initC iA iB iC nt e m);
   PPar output1p].
End OnePhase.

(** Private variables of the two-phase driver: range, constructor arguments, and the buffer with its
    dirty size as released by the symbolic accumulator.  masked-spgemm.h 127, 130-141, 155. *)
Record t2 := mkT2 { t2_rb : nat; t2_re : nat; t2_p : params; t2_buf : buf }.

Section TwoPhase.
Context (alg : rowalg V) (iA iB iM iR nt : nat) (sc : scratch) (flops cum : list nat) (total : nat).

(** masked-spgemm.h:146-153, one row; symbolicRow stores rowNvals[row], the driver reads it back *)
Definition srow2p (A B M : csr V) (row : nat) (s : ra_S alg * nat) : tprog (ra_S alg * nat) :=
  let '(acc, nvals) := s in
  pbind (lift (get flops row)) (fun f =>
  pbind (if f =? 0 then Wr (aNv, row) (VN 0) (Ret acc)
         else pbind (lift (ra_srow alg A B M row f acc)) (fun r => Wr (aNv, row) (VN (snd r)) (Ret (fst r)))) (fun acc =>
  pbind (rdN (aNv, row)) (fun n => Ret (acc, nvals + n)))).

(** masked-spgemm.h:124-155 *)
Definition symbolic2p (e : store) (t : nat) : tprog t2 :=
  pbind (lift (deref e iA)) (fun A => pbind (lift (deref e iB)) (fun B => pbind (lift (deref e iM)) (fun M =>
  pbind (lift (distributeWork total cum (rows A) nt t)) (fun '(rb, re) =>
  pbind (lift (scanInputs (ra_compl alg) false (ra_calcA alg) (ra_calcM alg) (ra_calcF alg) rb re flops A M))
    (fun '(_, maxA, maxM, maxF) =>
  let p := mkParams (cols B) maxA maxM maxF in
  pbind (lift (ra_req alg p)) (fun req =>
  pbind (lift (ra_sset alg p (allocBuf sc t req))) (fun acc =>
  pbind (pfor rb re (srow2p A B M) (acc, 0)) (fun '(acc, nvals) =>
  Wr (aTn, t) (VN nvals) (Ret (mkT2 rb re p (ra_srel alg acc))))))))))).

(** Stores of one row through currColId and currValue, which point [k] cells behind their start.  masked-spgemm.h 168-172. *)
Definition storeRow (posC posV : val V) (k : nat) (l : list (nat * V)) : tprog unit :=
  match l with
  | [] => Ret tt
  | _ => match posC, posV with
         | VN bc, VN bv => pbind (storeAt aCi (bc + k) ((fun e => VN (fst e)) <$> l)) (fun _ =>
                           storeAt aVa (bv + k) ((fun e => VV (snd e)) <$> l))
         | _, _ => Fail Uninit
         end
  end.

(** masked-spgemm.h:170-173, one row.  Room behind the cursors: the cells up to the end of the
    arrays of [nn] cells. *)
Definition nrow2p (A B M : csr V) (nn : nat) (posC posV : val V) (row : nat) (s : ra_N alg * list (nat * V))
  : tprog (ra_N alg * list (nat * V)) :=
  let '(acc, dn) := s in
  pbind (rdN (aNv, row)) (fun n =>
  if n =? 0 then Ret (acc, dn)
  else
  let cap := match posC with VN b => nn - b | _ => 0 end in
  pbind (lift (ra_nrow alg A B M row n acc (mkOut dn cap))) (fun r =>
  pbind (storeRow posC posV (length dn) (drop (length dn) (o_done (snd r)))) (fun _ =>
  Ret (fst r, o_done (snd r))))).

(** masked-spgemm.h:164-174 *)
Definition numeric2p (e : store) (t : nat) (s : t2) : tprog t2 :=
  pbind (lift (fresh_dims e iR)) (fun '(nrows, nn) =>
  pbind (setRowOffsets nrows nt (t2_rb s) (t2_re s) t) (fun _ =>
  pbind (lift (deref e iA)) (fun A => pbind (lift (deref e iB)) (fun B => pbind (lift (deref e iM)) (fun M =>
  pbind (lift (ra_nset alg (t2_p s) (t2_buf s))) (fun acc =>
  Rd (aRp, t2_rb s) (fun posC => Rd (aRp, t2_rb s) (fun posV =>
  pbind (pfor (t2_rb s) (t2_re s) (nrow2p A B M nn posC posV) (acc, [])) (fun _ => Ret s))))))))).

(** masked-spgemm.h:122-177 *)
Definition region2p : list (phase loc (val V) store t2) :=
  [PPar (fun e t _ => symbolic2p e t);
   PMaster (fun _ e m => initC iA iB iR nt e m);
   PPar numeric2p].
End TwoPhase.

(** The matrix held by a replaced object once the region is over; every cell must be initialised.
    C.rowptr, C.colids: common.h 161-164. *)
Definition readNs (m : mem) (a n : nat) : option (list nat) :=
  mapM (fun i => match m !! (a, i) with Some (VN x) => Some x | _ => None end) (seq 0 n).
(** C.values: common.h 165 *)
Definition readVs (m : mem) (a n : nat) : option (list V) :=
  mapM (fun i => match m !! (a, i) with Some (VV x) => Some x | _ => None end) (seq 0 n).
(** The object C or R: masked-spgemm.h 84-88, 161-173; common.h 152-166 *)
Definition outMatrix (e : store) (m : mem) (i : nat) : option (csr V) :=
  match e !! i with
  | Some (OFresh r c n) =>
    match readNs m aRp (r + 1), readNs m aCi n, readVs m aVa n with
    | Some rp, Some ci, Some va => Some (mkCsr r c n rp ci va)
    | _, _, _ => None
    end
  | _ => None
  end.

(** common.h:17-21 verifyInputs *)
Definition verifyInputs (A B M : csr V) : res unit :=
  _ <- assert_ (cols A =? rows B) ;;
  _ <- assert_ (rows M =? rows A) ;;
  assert_ (cols M =? cols B).

(** masked-spgemm.h:28-38,110-120: flop counts, their prefix sums, and the shared arrays at the start
    of the region. *)
Definition prepare_always (compl : bool) (A B M : csr V) (nt : nat) (flops cum : list nat) (total : nat) : Prop :=
  (if compl then calculateFlops_always A B (replicate (rows A) None) (Some <$> flops) total
   else calculateFlopsM_always A B M (replicate (rows A) None) (Some <$> flops) total) /\
  excScan_always 0 Nat.add flops (rows A) nt (replicate (rows A) None) (Some <$> cum).
(** rowNvals and threadsNvals, not initialised: masked-spgemm.h 37-38, 119-120 *)
Definition startMem (nrows nt : nat) : mem := cells aNv (replicate nrows VU) ∪ cells aTn (replicate nt VU).

(** [MaskedSpGEMM1p<RowAlgorithm>(A, B, C, M, multop, addop, numThreads)], masked-spgemm.h:17-95, on the
    objects [iA], [iB], [iC], [iM] of [s], always ends, with the objects as in [s'].
    setNumThreads (common.h:4-10) only replaces 0 by the OpenMP default. *)
Definition driver1p_always (alg : rowalg V) (iA iB iM iC nt : nat) (sc : scratch) (s s' : store) : Prop :=
  exists A B M, deref s iA = Ok A /\ deref s iB = Ok B /\ deref s iM = Ok M /\ verifyInputs A B M = Ok tt /\
  exists flops cum total, prepare_always (ra_compl alg) A B M nt flops cum total /\
  exists e m ss, region_always (region1p alg iA iB iM iC nt sc flops cum total) s (startMem (rows A) nt)
                   (replicate nt (mkT1 0 0 [])) e m ss /\
  exists C, outMatrix e m iC = Some C /\ s' = <[iC := OMat C]> e.

(** [MaskedSpGEMM2p<RowAlgorithm>(A, B, C, M, multop, addop, numThreads)], masked-spgemm.h:97-193.  [R] is a
    new object, [iR]; at the end C takes over its fields and R is emptied (182-192). *)
Definition driver2p_always (alg : rowalg V) (iA iB iM iC iR nt : nat) (sc : scratch) (s s' : store) : Prop :=
  exists A B M, deref s iA = Ok A /\ deref s iB = Ok B /\ deref s iM = Ok M /\ verifyInputs A B M = Ok tt /\
  exists flops cum total, prepare_always (ra_compl alg) A B M nt flops cum total /\
  exists e m ss, region_always (region2p alg iA iB iM iR nt sc flops cum total)
                   (<[iR := OMat (mkCsr 0 0 0 [] [] [])]> s) (startMem (rows A) nt)
                   (replicate nt (mkT2 0 0 (mkParams 0 0 0 0) (mkBuf 0 0 0 (fun _ => false)))) e m ss /\
  exists C, outMatrix e m iR = Some C /\ s' = delete iR (<[iC := OMat C]> e).
End Driver.
