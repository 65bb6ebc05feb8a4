(** The driver that chooses between MSA and MCA row by row: spgemm-blocks/masked-spgemm-poly.h:4-101
    (MaskedSpGEMM1p without a row-algorithm argument).

    Simplifications as in DriverModel.  The two accumulators live in the same buffer
    (masked-spgemm-poly.h:60-64); here each keeps its own cells once it is placed, which favours the
    code.  [polySet] computes where in the buffer each is placed. *)
From Coq Require Import NArith.
From Verif Require Import MsaModel McaModel MemModel AlgModel.
From Verif Require Export DriverModel.
From Verif Require Import Base Spec KernelBase.

Section Poly.
Context {V : Type} (mul add : V -> V -> V).
Notation store := (gmap nat (obj V)).
Notation mem := (gmap loc (val V)).
Notation tprog := (prog loc (val V)).

(** masked-spgemm-poly.h:39-58: bufferSize and bufferAlignment.  [sz] is sizeof(NT), [sE] the size of an
    entry of the mask-compressed accumulator. *)
Definition polyReq (sz sE : N) (p : params) : N * N :=
  let '(s1, a1) := msaReq true sz (pIdx p) in
  let '(s2, a2) := both_req (mca_req 1 (pM p)) (mca_req sE (pM p)) in
  (N.max (N.max 0 s1) s2, N.lcm (N.lcm 1 a1) a2).
(** masked-spgemm-poly.h:63-64: both numeric accumulators get the same buffer and the same dirty size *)
Definition polySet (sz sE : N) (p : params) (b : buf) : res (placed (msa V) * placed (mca V)) :=
  p1 <- msa2_set true sz (pIdx p) b ;;
  p2 <- mca_setbuf sE (pM p) (mkBuf (b_addr b) (b_size b) (b_dirty b) (b_ff (p_buf p1))) ;;
  Ok (p1, p2).

Section Region.
Context (sz sE : N) (iA iB iM iC nt : nat) (sc : scratch) (flops cum : list nat) (total : nat).

(** masked-spgemm-poly.h:73-83, one row; rowNvals is stored only for a row without flops *)
Definition rowPoly (A B M : csr V) (row : nat) (s : msa V * mca V * out V) : tprog (msa V * mca V * out V) :=
  let '(spa, mc, o) := s in
  pbind (lift (get flops row)) (fun f =>
  if negb (f =? 0) then
    pbind (lift (row_bounds M row)) (fun '(mb, me) =>
    pbind (lift (row_bounds A row)) (fun '(ab, ae) =>
    if (me - mb) * (ae - ab) <? f
    then pbind (lift (mcaNumericRow mul add A B M row mc o)) (fun '(mc, o) => Ret (spa, mc, o))
    else pbind (lift (msaNumericRow mul add true A B M row spa o)) (fun '(spa, o) => Ret (spa, mc, o))))
  else Wr (aNv, row) (VN 0) (Ret (spa, mc, o))).

(** masked-spgemm-poly.h:26-84 *)
Definition numericPoly (e : store) (t : nat) : tprog t1 :=
  pbind (lift (deref e iA)) (fun A => pbind (lift (deref e iB)) (fun B => pbind (lift (deref e iM)) (fun M =>
  pbind (lift (distributeWork total cum (rows A) nt t)) (fun '(rb, re) =>
  pbind (lift (scanInputs false true true true true rb re flops A M))
    (fun '(sizeC, maxA, maxM, maxF) =>
  let p := mkParams (cols B) maxA maxM maxF in
  pbind (lift (polySet sz sE p (allocBuf sc t (polyReq sz sE p)))) (fun '(p1, p2) =>
  pbind (pfor rb re (rowPoly A B M) (p_acc p1, p_acc p2, mkOut [] sizeC)) (fun '(_, _, o) =>
  Wr (aTn, t) (VN (length (o_done o))) (Ret (mkT1 rb re (o_done o)))))))))).

(** masked-spgemm-poly.h:24-98; the last phase (93-94) is that of masked-spgemm.h:87-88 *)
Definition regionPoly : list (phase loc (val V) store t1) :=
  [PPar (fun e t _ => numericPoly e t);
   PMaster (fun _ e m => initC iA iB iC nt e m);
   PPar (output1p iC nt)].
End Region.

(** [MaskedSpGEMM1p(A, B, C, M, multop, addop, numThreads)], masked-spgemm-poly.h:6-101, always ends, with
    the objects as in [s']. *)
Definition poly_always (sz sE : N) (iA iB iM iC nt : nat) (sc : scratch) (s s' : store) : Prop :=
  exists A B M, deref s iA = Ok A /\ deref s iB = Ok B /\ deref s iM = Ok M /\ verifyInputs A B M = Ok tt /\
  exists flops cum total, prepare_always false A B M nt flops cum total /\
  exists e m ss, region_always (regionPoly sz sE iA iB iM iC nt sc flops cum total) s (startMem (rows A) nt)
                   (replicate nt (mkT1 0 0 [])) e m ss /\
  exists C, outMatrix e m iC = Some C /\ s' = <[iC := OMat C]> e.
(** Some run of it ends in the fault [f] inside the parallel region.  masked-spgemm-poly.h 6-101. *)
Definition poly_faults (sz sE : N) (iA iB iM iC nt : nat) (sc : scratch) (s : store) (f : fault) : Prop :=
  exists A B M, deref s iA = Ok A /\ deref s iB = Ok B /\ deref s iM = Ok M /\ verifyInputs A B M = Ok tt /\
  exists flops cum total, prepare_always false A B M nt flops cum total /\
  region_outcome (regionPoly sz sE iA iB iM iC nt sc flops cum total) s (startMem (rows A) nt)
    (replicate nt (mkT1 0 0 [])) (Err f).
End Poly.
