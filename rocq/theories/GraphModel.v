(** The k-truss loop (benchmarks/KTrussAllGrb.cpp 150-287, msp_ktruss) and triangle counting
    (benchmarks/TriCntAllGrb.cpp 112-204, msp_tri_count_sandia_L).

    Simplifications.  Values (int64_t) are integers.  The GraphBLAS calls are not part of the repository and
    are given by contract: GxB_Matrix_select with GxB_GE_THUNK keeps the entries with value >= thunk,
    GrB_Matrix_reduce_UINT64 adds all values, GrB_Matrix_nvals is the number of entries; moving the arrays
    between CSR and GrB_Matrix does not change the matrix.  Timing and output are left out. *)
From Coq Require Export ZArith.
From Verif Require Export Base Spec.

(** [f_one]: KTrussAllGrb.cpp 173, TriCntAllGrb.cpp 138 *)
Definition fOne (_ _ : Z) : Z := 1%Z.

(** GxB_Matrix_select(C, NULL, NULL, GxB_GE_THUNK, C, s, NULL): KTrussAllGrb.cpp 232 *)
Definition selectGE (s : Z) (C0 C : csr Z) : Prop :=
  wf C /\ rows C = rows C0 /\ cols C = cols C0 /\
  forall i, i < rows C0 -> row_entries C i = filter (fun e => (s <= snd e)%Z) (row_entries C0 i).

Section KTruss.
(** [mxm T C0]: the call f(T, T, C0, T, f_one, plus, tnum) can leave C0. *)
Context (mxm : csr Z -> csr Z -> Prop) (k : nat).

(** One round: KTrussAllGrb.cpp 196-245; the thunk is k - 2 (line 176) *)
Definition kround (T C : csr Z) : Prop := exists C0, mxm T C0 /\ selectGE (Z.of_nat k - 2) C0 C.

(** The loop from the state (T, nnz_last); results: final T and nsteps.  KTrussAllGrb.cpp 195-246 *)
Inductive kloop : csr Z -> nat -> csr Z -> nat -> Prop :=
| kstop T last C : kround T C -> nnz C = last -> kloop T last C 1
| kmore T last C R n : kround T C -> nnz C <> last -> kloop C (nnz C) R n -> kloop T last R (S n).

(** States after a number of rounds that did not leave the loop.  KTrussAllGrb.cpp 195-246. *)
Inductive krounds : csr Z -> nat -> nat -> csr Z -> nat -> Prop :=
| kr0 T last : krounds T last 0 T last
| krS T last C n T' last' : kround T C -> nnz C <> last -> krounds C (nnz C) n T' last' -> krounds T last (S n) T' last'.
End KTruss.

(** GrB_Matrix_reduce_UINT64: TriCntAllGrb.cpp 182-183 *)
Definition reduceSum (C : csr Z) : Z := foldr Z.add 0%Z (values C).
(** GxB_Matrix_select(L, NULL, NULL, GxB_TRIL, A, -1, NULL) keeps the entries below the diagonal:
    get_lowtri, grb_util.h 836-855 *)
Definition lowTri (A L : csr Z) : Prop :=
  wf L /\ rows L = rows A /\ cols L = cols A /\
  forall i, i < rows A -> row_entries L i = filter (fun e => fst e < i) (row_entries A i).
