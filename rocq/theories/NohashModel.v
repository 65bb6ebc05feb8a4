(** innerSpGEMM_nohash: inner_mult.h 49-183.

    Simplifications.  Row pointers, column indices and counts are unbounded naturals; [W] is the number of
    values of the index type, used where a product can wrap around.  A thread counts the entries of a row,
    and of all its rows, in locals and stores rownnz[i] after the row and th_nnz[tid] after the last row
    (inner_mult.h 132, 135-136 count in the cells themselves, which only this thread touches), and collects
    a row's entries before it stores them (nothing is read from C in between).  The copies of M.rowptr and
    M.colids into C at the start only set up memory: C.rowptr is never read.  C.make_empty() is left out. *)
From Verif Require Import Base Spec KernelBase InnerModel.
From Verif Require Export Conc ParModel TwoPassModel BinModel.
From Verif Require Import Base Spec.

Section Nohash.
Context {V : Type} (dflt zero : V) (mul add : V -> V -> V) (W top : nat).

(** The [while] loop: inner_mult.h 118-130; the pair is t_val, active. *)
Fixpoint nhLoop (fuel : nat) (A : csr V) (B : csc V) (ae be ia ib : nat) (s : V * bool) : res (V * bool) :=
  match fuel with
  | O => Err OutOfFuel
  | Datatypes.S fuel' =>
    if (ia <? ae) && (ib <? be) then
      ka <- get (colids A) ia ;;
      kb <- get (rowids B) ib ;;
      if ka <? kb then nhLoop fuel' A B ae be (ia + 1) ib s
      else if kb <? ka then nhLoop fuel' A B ae be ia (ib + 1) s
      else
        a <- get (values A) ia ;;
        b <- get (c_values B) ib ;;
        nhLoop fuel' A B ae be (ia + 1) (ib + 1) (add (fst s) (mul a b), true)
    else Ok s
  end.

(** The entries of one row: inner_mult.h 109-138 *)
Definition nhRow (A : csr V) (B : csc V) (M : csr V) (i : nat) : res (list (nat * V)) :=
  mask_loop M i (fun c l =>
    '(ab, ae) <- row_bounds A i ;;
    '(bb, be) <- col_bounds B c ;;
    '(v, active) <- nhLoop (Datatypes.S ((ae - ab) + (be - bb))) A B ae be ab bb (zero, false) ;;
    Ok (if active : bool then l ++ [(c, v)] else l)) [].

(** The array th_nnz: inner_mult.h 85 (rownnz, line 86, is [tNz]; C.colids and C.values are [tIds], [tVals]) *)
Definition tTh : nat := 3.

(** The rows of one thread: inner_mult.h 102-139; [cnt] is th_nnz[tid]. *)
Fixpoint nhRows (A : csr V) (B : csc V) (M : csr V) (start : nat) (its : list nat) (cnt : nat) : prog loc (@tcell V) nat :=
  match its with
  | [] => Ret cnt
  | i :: its' =>
    pbind (lift (nhRow A B M i)) (fun l =>
    pbind (lift (get (rowptr M) start)) (fun base =>
    pbind (storeRow (base + cnt) l) (fun _ =>
    Wr (tNz, i) (TN (length l)) (nhRows A B M start its' (cnt + length l)))))
  end.

(** rowPerThread: inner_mult.h 88 *)
Definition nhPer (rows nt : nat) : nat := (rows + nt - 1) mod W / nt.

(** One thread of the parallel region: inner_mult.h 89-141 *)
Definition nhThread (A : csr V) (B : csc V) (M : csr V) (nt t : nat) : prog loc (@tcell V) unit :=
  let start := (nhPer (rows M) nt * t) mod W in
  let stop := Nat.min ((nhPer (rows M) nt * (t + 1)) mod W) (rows M) in
  pbind (nhRows A B M start (seq start (stop - start)) 0) (fun cnt => Wr (tTh, t) (TN cnt) (Ret tt)).
(** All threads of the region: inner_mult.h 89-141 *)
Definition nhThreads (A : csr V) (B : csc V) (M : csr V) (nt : nat) : list (prog loc (@tcell V) unit) :=
  nhThread A B M nt <$> seq 0 nt.

(** The shared arrays: inner_mult.h 60-71, 85-86 *)
Definition nhMem (ids : list nat) (vals : list V) (nz th : list nat) : gmap loc (@tcell V) :=
  cells tIds (TN <$> ids) ∪ cells tVals (TV <$> vals) ∪ cells tNz (TN <$> nz) ∪ cells tTh (TN <$> th).

(** memcpy of [n] elements: inner_mult.h 157-158, 164-165 *)
Definition copyR {X} (dst : list X) (d : nat) (src : list X) (s n : nat) : res (list X) :=
  for_ 0 n (fun k dst => x <- get src (s + k) ;; set_ dst (d + k) x) dst.

(** The sequential end: inner_mult.h 146-172; [nnz0] is C_final.nnz as the caller left it.  my_malloc
    value-initialises (utility.h 109-147). *)
Definition nhFinish (A M : csr V) (nt nnz0 : nat) (ids : list nat) (vals : list V) (nz th : list nat) : res (csr V) :=
  tot <- for_ 0 (rows M) (fun i s => x <- get nz i ;; Ok (s + x)) nnz0 ;;
  t0 <- get th 0 ;;
  fi <- copyR (replicate tot 0) 0 ids 0 t0 ;;
  fv <- copyR (replicate tot dflt) 0 vals 0 t0 ;;
  '(_, fi, fv) <- for_ 1 nt (fun i '(dest, fi, fv) =>
    let loc := Nat.min ((i * nhPer (rows M) nt) mod W) (rows A) in
    x <- get th (i - 1) ;;
    let dest := dest + x in
    p <- get (rowptr M) loc ;;
    n <- get th i ;;
    fi <- copyR fi dest ids p n ;;
    fv <- copyR fv dest vals p n ;;
    Ok (dest, fi, fv)) (0, fi, fv) ;;
  rp <- for_ 1 (rows M + 1) (fun i rp => x <- get rp (i - 1) ;; y <- get nz (i - 1) ;; set_ rp i (x + y)) (replicate (rows M + 1) 0) ;;
  Ok (mkCsr (rows M) (cols M) tot rp fi fv).

(** [#pragma omp parallel { numThreads = omp_get_num_threads(); }]: inner_mult.h 79-83 *)
Definition nhNumThreads (nt : nat) : list (prog unit nat unit) := replicate nt (Wr tt nt (Ret tt)).

(** innerSpGEMM_nohash always ends, whatever the interleaving, with [C]: inner_mult.h 49-183.  BIN.h is
    asked for a distribution of the rows, which is not used. *)
Definition innerSpGEMM_nohash_ends (nts nt min : nat) (A : csr V) (B : csc V) (M : csr V) (nnz0 : nat) (C : csr V) : Prop :=
  exists b ids vals nz th,
    set_max_bin_ends W top nts nt min (rowptr A) (colids A) (colptr B) (rows A) (cols M) b /\
    always (nhMem (colids M) (replicate (nnz M) zero) (replicate (rows M) 0) (replicate nt 0), nhThreads A B M nt)
      (nhMem ids vals nz th) (replicate nt tt) /\
    nhFinish A M nt nnz0 ids vals nz th = Ok C.
End Nohash.
