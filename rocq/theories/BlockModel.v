(** Counting triangles block by block (sample/blocked_parallel_tc.cpp).

    Simplifications.  Values are integers (the program uses double, which holds them exactly below 2^53).  The iterations of the collapsed
    parallel loop (108-174) share only what they read, and each writes cells of its own, so their outcomes are taken one by one; the library calls inside run with
    one thread, their prefix sums with [nts].  Copies of matrices (submatricesCSC, submatricesCSR, A_Copy, B_Copy, M_Copy) are the matrices themselves (C34).
    A default-constructed intersection has no entries.  Messages, timing, the timed repetitions (206-336) and the log file
    (338-361) are left out.  Numbers of operations and entries are added without overflow. *)
From Coq Require Import DecimalString.
From Verif Require Import IoModel MatModel IndexModel ReportModel HashHwModel IsectModel SpaModel NohashModel MaskHashModel.
From Verif Require Import Base Spec.
Local Open Scope list_scope.

(** std::to_string of a number that is not negative: 93 *)
Definition toString (n : nat) : list ascii := list_ascii_of_string (NilZero.string_of_uint (Nat.to_uint n)).
(** inputname: 49, 93-94 *)
Definition blockName (dir : list ascii) (i j : nat) : list ascii :=
  let inputheader := dir ++ list_ascii_of_string "/splitmatrix_" in
  let inputfooter := toString (i + 1) ++ list_ascii_of_string "_" ++ toString (j + 1) ++ list_ascii_of_string ".mtx" in
  inputheader ++ inputfooter.

(** What one iteration leaves in flps, nnzs, masked_nnzs, masked_inner_nnzs and triangles: 54-58 *)
Record tcCell := mkCell { t_flps : nat; t_nnzs : nat; t_masked : nat; t_inner : nat; t_tri : Z }.
(** The totals: 176-180 *)
Record tcTotals := mkTotals { totalflops : nat; totalnnzs : nat; totalmaskednnz : nat; totalmaskedinnernnz : nat; totaltriangles : Z }.

Section Blocks.
Context (w : N) (W top nts : nat) (stdsort : list (nat * Z) -> list (nat * Z)).

(** ReadASCII into A_csc, then A_csr(A_csc): 96-100.  [f]: what the file holds, if there is one. *)
Definition readBlock_ends (f : option (list ascii)) (Xc : csc Z) (X : csr Z) : Prop :=
  readASCII (fun z => z) 0%Z stdsort 9223372036854775807%Z f (Ok Xc) /\ csrOfCsc 0%Z Xc = Ok X.

(** One iteration: 115-171.  [A], [B], [M]: submatricesCSR[i][k], [k][j], [i][j]; [Bc]: submatricesCSC[k][j].  The
    first product is sorted and intersected with the mask (127-137), then come the three masked products (141-160). *)
Definition tcStep_ends (A B M : csr Z) (Bc : csc Z) (o : tcCell) : Prop :=
  exists C S T C1 C2 C3,
    getFlopCsr A B = Ok (t_flps o) /\
    hashSpGEMM_ends 0%Z Z.mul Z.add w W stdsort false top nts 1 A B C /\ t_nnzs o = nnz C /\
    sortIds_ends stdsort C S /\
    intersect_ends 0%Z Z.add top nts M S T /\ t_masked o = match T with Some T => nnz T | None => 0 end /\
    spaSpGEMM_ends 0%Z Z.mul Z.add W top nts 1 A B M C1 /\
    sumall_result 0%Z (stepInt 64) (plusInt 64) (values C1) (nnz C1) (t_tri o) /\
    innerSpGEMM_nohash_ends 0%Z 0%Z Z.mul Z.add W top nts 1 8 A Bc M 0 C2 /\ t_inner o = nnz C2 /\
    mxmHashMask_ends 0%Z Z.mul Z.add w W top nts 1 A B M C3.

(** The three loops over the cells: 184-188, 109-113 *)
Definition cellsOf (gridx gridy : nat) : list (nat * nat * nat) :=
  mjoin ((fun i => mjoin ((fun j => (fun k => (i, j, k)) <$> seq 0 gridy) <$> seq 0 gridy)) <$> seq 0 gridx).
(** The sums: 190-194; totaltriangles is an int64_t *)
Definition addCell (o : tcCell) (T : tcTotals) : tcTotals :=
  mkTotals (totalflops T + t_flps o) (totalnnzs T + t_nnzs o) (totalmaskednnz T + t_masked o)
    (totalmaskedinnernnz T + t_inner o) (plusInt 64 (totaltriangles T) (t_tri o)).
(** The sums over all cells of the grid: 172-194 *)
Definition totals (gridx gridy : nat) (out : nat -> nat -> nat -> tcCell) : tcTotals :=
  fold_left (fun T '(i, j, k) => addCell (out i j k) T) (cellsOf gridx gridy) (mkTotals 0 0 0 0 0%Z).

(** The program up to the totals it prints: 45-203.  [fs]: the files.  It stops at the assertion of 47 if the grid is
    not square. *)
Definition blockedTc_ends (gridx gridy : nat) (dir : list ascii) (fs : list ascii -> option (list ascii)) (T : tcTotals) : Prop :=
  gridx = gridy /\
  exists (mc : nat -> nat -> csc Z) (m : nat -> nat -> csr Z) (out : nat -> nat -> nat -> tcCell),
    (forall i j, i < gridx -> j < gridy -> readBlock_ends (fs (blockName dir i j)) (mc i j) (m i j)) /\
    (forall i j k, i < gridx -> j < gridy -> k < gridy -> tcStep_ends (m i k) (m k j) (m i j) (mc k j) (out i j k)) /\
    T = totals gridx gridy out.
End Blocks.
