(** The drivers of the inner-product algorithm: spgemm-blocks/masked-spgemm-inner.h (MaskedSpGEMM1p 6-71,
    MaskedSpGEMM2p 73-141, B a CSC matrix) and the same two functions with the kernels inlined by hand,
    spgemm-blocks/inner/MaskedInnerSpGEMM.h:13-107 and 109-229 (the inlined text is that of
    InnerAlgorithm.h, so both are the programs below).

    Simplifications as in DriverModel.  The temporary arrays of the one-phase driver are shared cells:
    all threads write them. *)
From Verif Require Import InnerModel.
From Verif Require Export DriverModel.

(** colIds and values, M.nnz cells each (masked-spgemm-inner.h:29-30). *)
Definition aTc : nat := 5.
(** values: masked-spgemm-inner.h 30 *)
Definition aTv : nat := 6.

Section InnerDriver.
Context {V : Type} (mul add : V -> V -> V).
Notation store := (gmap nat (obj V)).
Notation mem := (gmap loc (val V)).
Notation tprog := (prog loc (val V)).

(** Stores of one row's entries, first indices then values, from positions [pc] and [pv] on
    (InnerAlgorithm.h:70-73). *)
Definition storeEntries (ac av pc pv : nat) (l : list (nat * V)) : tprog unit :=
  pbind (storeAt ac pc ((fun e => VN (fst e)) <$> l)) (fun _ => storeAt av pv ((fun e => VV (snd e)) <$> l)).

(** std::copy(src + from, src + from + cnt, dst + pos) between shared arrays (common.h:181-185) *)
Definition copyShared (src from dst : nat) (pos : val V) (cnt : nat) : tprog unit :=
  pfor 0 cnt (fun k _ => Rd (src, from + k) (fun v =>
    match v, pos with
    | VU, _ => Fail Uninit
    | _, VN p => Wr (dst, p + k) v (Ret tt)
    | _, _ => Fail Uninit
    end)) tt.

(** Private variables: the row range and where colIdsLocal, valuesLocal start.  masked-spgemm-inner.h 38-44. *)
Record ti := mkTi { ti_rb : nat; ti_re : nat; ti_base : nat }.

Section OnePhase.
Context (iA iB iM iC nt : nat) (work cum : list nat) (total : nat).

(** masked-spgemm-inner.h:47-55, one row.  The state is the list of entries stored so far; room: the
    cells from [base] to the end of the arrays. *)
Definition rowI1p (A : csr V) (B : csc V) (M : csr V) (base row : nat) (dn : list (nat * V)) : tprog (list (nat * V)) :=
  pbind (lift (get work row)) (fun w =>
  pbind (if w =? 0 then Wr (aNv, row) (VN 0) (Ret tt) else Ret tt) (fun _ =>
  pbind (lift (innerNumericRow mul add A B M row (mkOut dn (nnz M - base)))) (fun o =>
  let new := drop (length dn) (o_done o) in
  pbind (storeEntries aTc aTv (base + length dn) (base + length dn) new) (fun _ =>
  Wr (aNv, row) (VN (length (o_done o) - length dn)) (Ret (o_done o)))))).

(** masked-spgemm-inner.h:34-57 *)
Definition numericI1p (e : store) (t : nat) : tprog ti :=
  pbind (lift (deref e iA)) (fun A => pbind (lift (deref_csc e iB)) (fun B => pbind (lift (deref e iM)) (fun M =>
  pbind (lift (distributeWork total cum (rows A) nt t)) (fun '(rb, re) =>
  pbind (lift (get (rowptr M) rb)) (fun base =>
  pbind (pfor rb re (rowI1p A B M base) []) (fun dn =>
  Wr (aTn, t) (VN (length dn)) (Ret (mkTi rb re base)))))))).

(** masked-spgemm-inner.h:66-67 *)
Definition outputI1p (e : store) (t : nat) (s : ti) : tprog ti :=
  pbind (lift (fresh_dims e iC)) (fun '(nrows, _) =>
  pbind (setRowOffsets nrows nt (ti_rb s) (ti_re s) t) (fun _ =>
  pbind (rdN (aTn, t)) (fun n =>
  Rd (aRp, ti_rb s) (fun p => pbind (copyShared aTc (ti_base s) aCi p n) (fun _ =>
  Rd (aRp, ti_rb s) (fun q => pbind (copyShared aTv (ti_base s) aVa q n) (fun _ => Ret s))))))).

(** masked-spgemm-inner.h:32-68 *)
Definition regionI1p : list (phase loc (val V) store ti) :=
  [PPar (fun e t _ => numericI1p e t);
   PMaster (fun _ e m => initC iA iB iC nt e m);
   PPar outputI1p].
End OnePhase.

Section TwoPhase.
Context (iA iB iM iC nt : nat) (work cum : list nat) (total : nat).

(** masked-spgemm-inner.h:105-113, one row; symbolicRow stores rowNvals[row], the driver reads it back *)
Definition srowI2p (A : csr V) (B : csc V) (M : csr V) (row nvals : nat) : tprog nat :=
  pbind (lift (get work row)) (fun w =>
  if w =? 0 then Wr (aNv, row) (VN 0) (Ret nvals)
  else pbind (lift (innerSymbolicRow A B M row)) (fun r =>
       Wr (aNv, row) (VN r) (pbind (rdN (aNv, row)) (fun n => Ret (nvals + n))))).

(** masked-spgemm-inner.h:97-114 *)
Definition symbolicI2p (e : store) (t : nat) : tprog ti :=
  pbind (lift (deref e iA)) (fun A => pbind (lift (deref_csc e iB)) (fun B => pbind (lift (deref e iM)) (fun M =>
  pbind (lift (distributeWork total cum (rows A) nt t)) (fun '(rb, re) =>
  pbind (pfor rb re (srowI2p A B M) 0) (fun nvals =>
  Wr (aTn, t) (VN nvals) (Ret (mkTi rb re 0))))))).

(** masked-spgemm-inner.h:128-137, one row: the inputs are read again here, after initC has replaced
    the arrays of C.  [nn] is C.nnz. *)
Definition nrowI2p (e : store) (nn : nat) (posC posV : val V) (row : nat) (dn : list (nat * V)) : tprog (list (nat * V)) :=
  pbind (lift (get work row)) (fun w =>
  if w =? 0 then Wr (aNv, row) (VN 0) (Ret dn)
  else
  pbind (lift (deref e iA)) (fun A => pbind (lift (deref_csc e iB)) (fun B => pbind (lift (deref e iM)) (fun M =>
  let cap := match posC with VN b => nn - b | _ => 0 end in
  pbind (lift (innerNumericRow mul add A B M row (mkOut dn cap))) (fun o =>
  pbind (storeRow posC posV (length dn) (drop (length dn) (o_done o))) (fun _ =>
  Wr (aNv, row) (VN (length (o_done o) - length dn)) (Ret (o_done o)))))))).

(** masked-spgemm-inner.h:123-137 *)
Definition numericI2p (e : store) (t : nat) (s : ti) : tprog ti :=
  pbind (lift (fresh_dims e iC)) (fun '(nrows, nn) =>
  pbind (setRowOffsets nrows nt (ti_rb s) (ti_re s) t) (fun _ =>
  Rd (aRp, ti_rb s) (fun posC => Rd (aRp, ti_rb s) (fun posV =>
  pbind (pfor (ti_rb s) (ti_re s) (nrowI2p e nn posC posV) []) (fun _ => Ret s))))).

(** masked-spgemm-inner.h:95-138 *)
Definition regionI2p : list (phase loc (val V) store ti) :=
  [PPar (fun e t _ => symbolicI2p e t);
   PMaster (fun _ e m => initC iA iB iC nt e m);
   PPar numericI2p].
End TwoPhase.

(** common.h:17-21 verifyInputs with B by columns *)
Definition verifyInputsI (A : csr V) (B : csc V) (M : csr V) : res unit :=
  _ <- assert_ (cols A =? c_rows B) ;;
  _ <- assert_ (rows M =? rows A) ;;
  assert_ (cols M =? c_cols B).

(** masked-spgemm-inner.h:17-22,84-89 *)
Definition prepareI_always (A : csr V) (B : csc V) (M : csr V) (nt : nat) (work cum : list nat) (total : nat) : Prop :=
  calculateWork_always A B M (replicate (rows M) None) (Some <$> work) total /\
  excScan_always 0 Nat.add work (rows M) nt (replicate (rows M) None) (Some <$> cum).

(** The shared arrays at the start of the one-phase region (masked-spgemm-inner.h:25-30). *)
Definition startMemI (nrows nt nn : nat) : mem :=
  startMem nrows nt ∪ cells aTc (replicate nn VU) ∪ cells aTv (replicate nn VU).

(** [MaskedSpGEMM1p<InnerAlgorithm>(A, B, C, M, ...)], masked-spgemm-inner.h:6-71, always ends, with the
    objects as in [s']. *)
Definition inner1p_always (iA iB iM iC nt : nat) (s s' : store) : Prop :=
  exists A B M, deref s iA = Ok A /\ deref_csc s iB = Ok B /\ deref s iM = Ok M /\ verifyInputsI A B M = Ok tt /\
  exists work cum total, prepareI_always A B M nt work cum total /\
  exists e m ss, region_always (regionI1p iA iB iM iC nt work cum total) s (startMemI (rows M) nt (nnz M))
                   (replicate nt (mkTi 0 0 0)) e m ss /\
  exists C, outMatrix e m iC = Some C /\ s' = <[iC := OMat C]> e.

(** [MaskedSpGEMM2p<InnerAlgorithm>(A, B, C, M, ...)], masked-spgemm-inner.h:73-141. *)
Definition inner2p_always (iA iB iM iC nt : nat) (s s' : store) : Prop :=
  exists A B M, deref s iA = Ok A /\ deref_csc s iB = Ok B /\ deref s iM = Ok M /\ verifyInputsI A B M = Ok tt /\
  exists work cum total, prepareI_always A B M nt work cum total /\
  exists e m ss, region_always (regionI2p iA iB iM iC nt work cum total) s (startMem (rows M) nt)
                   (replicate nt (mkTi 0 0 0)) e m ss /\
  exists C, outMatrix e m iC = Some C /\ s' = <[iC := OMat C]> e.
(** Some run of [MaskedSpGEMM2p<InnerAlgorithm>] ends in the fault [f] inside the parallel region. *)
Definition inner2p_faults (iA iB iM iC nt : nat) (s : store) (f : fault) : Prop :=
  exists A B M, deref s iA = Ok A /\ deref_csc s iB = Ok B /\ deref s iM = Ok M /\ verifyInputsI A B M = Ok tt /\
  exists work cum total, prepareI_always A B M nt work cum total /\
  region_outcome (regionI2p iA iB iM iC nt work cum total) s (startMem (rows M) nt) (replicate nt (mkTi 0 0 0)) (Err f).
End InnerDriver.
