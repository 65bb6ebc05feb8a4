(** The two passes over the rows shared by the older products: a counting pass, a prefix sum, a filling
    pass.  spa_mult.h 29-90, mask_hash_mult.h 64-153 and 183-238, hash_mult_hw.h 26-77, 80-89, 97-181.

    Simplifications.  A thread computes a row's count in a local and stores it once (mask_hash_mult.h 87, 96
    and 190, 199 count in the cell itself, which only this thread touches), and collects a row's entries
    before it stores them (in the code nothing is read from C in between).  [init t] is the private
    accumulator thread [t] builds before its rows; a pass that builds one per row keeps it inside [sym],
    [num].  The row pointers of C are only read by the filling pass, so they are a parameter of it. *)
From Verif Require Import Base Spec.
From Verif Require Export Conc ParModel ScanModel LegacyScanModel.
From Verif Require Import Spec.

Section TwoPass.
Context {V : Type} (dflt : V) (top : nat).

(** Shared cells: spa_mult.h 19, 61-62 *)
Inductive tcell := TN (n : nat) | TV (v : V).
Notation tprog := (prog loc tcell).
(** The arrays C.colids, C.values, row_nz: spa_mult.h 19, 61-62 *)
Definition tIds : nat := 0.
(** C.values: spa_mult.h 62 *)
Definition tVals : nat := 1.
(** row_nz: spa_mult.h 19 *)
Definition tNz : nat := 2.

Section Passes.
Context {S : Type}.

(** Counting pass of one thread: spa_mult.h 41-54 *)
Fixpoint symRows (sym : nat -> S -> res (S * nat)) (its : list nat) (s : S) : tprog unit :=
  match its with
  | [] => Ret tt
  | i :: its' => pbind (lift (sym i s)) (fun r => Wr (tNz, i) (TN (snd r)) (symRows sym its' (fst r)))
  end.

(** A row's entries written behind C.colids + C.rowptr[i] and C.values + C.rowptr[i]: SPA.h 56-62 *)
Fixpoint storeRow (off : nat) (l : list (nat * V)) : tprog unit :=
  match l with
  | [] => Ret tt
  | x :: l' => Wr (tIds, off) (TN (fst x)) (Wr (tVals, off) (TV (snd x)) (storeRow (off + 1) l'))
  end.

(** Filling pass of one thread: spa_mult.h 76-89 *)
Fixpoint numRows (num : nat -> S -> res (S * list (nat * V))) (rp : list nat) (its : list nat) (s : S) : tprog unit :=
  match its with
  | [] => Ret tt
  | i :: its' =>
    pbind (lift (num i s)) (fun r =>
    pbind (lift (get rp i)) (fun off =>
    pbind (storeRow off (snd r)) (fun _ => numRows num rp its' (fst r))))
  end.

(** The threads; [asg] lists the rows of each of them.  spa_mult.h 30-40, 65-75 *)
Definition symThreads (init : nat -> res S) (sym : nat -> S -> res (S * nat)) (asg : list (list nat)) : list (tprog unit) :=
  imap (fun t its => pbind (lift (init t)) (symRows sym its)) asg.
(** The threads of the numeric pass: spa_mult.h 65-75 *)
Definition numThreads (init : nat -> res S) (num : nat -> S -> res (S * list (nat * V))) (rp : list nat) (asg : list (list nat)) : list (tprog unit) :=
  imap (fun t its => pbind (lift (init t)) (numRows num rp its)) asg.
End Passes.

(** Memory of the two passes: spa_mult.h 19, 61-62 *)
Definition symMem (nz : list nat) : gmap loc tcell := cells tNz (TN <$> nz).
(** Memory of the numeric pass: spa_mult.h 61-62 *)
Definition numMem (ids : list nat) (vals : list V) : gmap loc tcell := cells tIds (TN <$> ids) ∪ cells tVals (TV <$> vals).

(** Both passes with the prefix sum (run by [nts] threads) between them, always ending with the matrix C.
    [nz0] is what row_nz holds before the counting pass (zeros for a fresh array).
    spa_mult.h 15-19, 29-90; the sizes of the arrays of C: spa_mult.h 18, 59-62 *)
Definition twoPass_ends {S1 S2} (nts : nat) (n ncols : nat) (nz0 : list nat)
    (init1 : nat -> res S1) (sym : nat -> S1 -> res (S1 * nat)) (asg1 : list (list nat))
    (init2 : nat -> res S2) (num : list nat -> nat -> S2 -> res (S2 * list (nat * V))) (asg2 : list (list nat)) (C : csr V) : Prop :=
  rows C = n /\ cols C = ncols /\
  exists nz,
    always (symMem nz0, symThreads init1 sym asg1) (symMem nz) (replicate (length asg1) tt) /\
    lScan_always 0 Nat.add top nz (n + 1) nts (replicate (n + 1) (Some 0)) (Some <$> rowptr C) /\
    get (rowptr C) n = Ok (nnz C) /\
    always (numMem (replicate (nnz C) 0) (replicate (nnz C) dflt), numThreads init2 (num (rowptr C)) (rowptr C) asg2)
      (numMem (colids C) (values C)) (replicate (length asg2) tt).
End TwoPass.
Arguments tcell : clear implicits.

(** The rows of each thread when thread [t] takes rows [off t] to [off (t+1)]: spa_mult.h 35-36, 41 *)
Definition chunks (off : list nat) (nt : nat) : res (list (list nat)) :=
  foldM (fun acc t => lo <- get off t ;; hi <- get off (t + 1) ;; Ok (acc ++ [seq lo (hi - lo)])) (seq 0 nt) [].
