(** HashSpGEMM (hash_mult_hw.h): the unmasked product with one hash table per thread.

    Simplifications.  As in BinModel.v, TwoPassModel.v and LpModel.v.  The empty mark -1 in a table is [None].
    std::sort is a parameter (its contract is stated with the theorems).  All threads asked for with
    num_threads are taken to exist. *)
From Verif Require Import Base Spec KernelBase.
From Verif Require Export LpModel BinModel TwoPassModel.
From Verif Require Import Spec.

Section HashHw.
Context {V : Type} (dflt : V) (multop addop : V -> V -> V) (w : N) (W : nat).
Context (stdsort : list (nat * V) -> list (nat * V)).

(** [SH_ROW = IMB_PWMIN << (bid - 1)]: hash_mult_hw.h 48, 124 (IMB_PWMIN = B_PWMIN = 8, lines 18-19) *)
Definition shRow (bid : nat) : nat := (8 * 2 ^ (bid - 1)) mod W.
(** [for (j = 0; j < SH_ROW; ++j) check[j] = -1]: hash_mult_hw.h 49-51, 126-128 *)
Definition hwClear (size : nat) (keys : list (option nat)) : res (list (option nat)) :=
  for_ 0 size (fun j keys => set_ keys j None) keys.

(** One product of the counting pass: hash_mult_hw.h 56-70 *)
Definition hwCount (size c : nat) (s : list (option nat) * nat) : res (list (option nat) * nat) :=
  let '(keys, nz) := s in
  '(keys, _, new) <- lpInsert w keys size c ;;
  Ok (keys, if (new : bool) then nz + 1 else nz).

(** One row of the counting pass: hash_mult_hw.h 36-74, 84 *)
Definition hwSym (A B : csr V) (ids : list nat) (i : nat) (keys : list (option nat)) : res (list (option nat) * nat) :=
  bid <- get ids i ;;
  if 0 <? bid then
    let size := shRow bid in
    keys <- hwClear size keys ;;
    prod_loop A B i (fun j k s => c <- get (colids B) k ;; hwCount size c s) (keys, 0)
  else Ok (keys, 0).

(** One product of the filling pass: hash_mult_hw.h 134-151; note the order of the operands of addop *)
Definition hwAdd (size c : nat) (x : V) (s : list (option nat) * list V) : res (list (option nat) * list V) :=
  let '(keys, vals) := s in
  '(keys, p, new) <- lpInsert w keys size c ;;
  if (new : bool) then vals <- set_ vals p x ;; Ok (keys, vals)
  else old <- get vals p ;; vals <- set_ vals p (addop x old) ;; Ok (keys, vals).

(** The occupied slots in order: hash_mult_hw.h 170-177 *)
Definition hwGather (size : nat) (keys : list (option nat)) (vals : list V) : res (list (nat * V)) :=
  for_ 0 size (fun j l =>
    x <- get keys j ;;
    match x with None => Ok l | Some k => v <- get vals j ;; Ok (l ++ [(k, v)]) end) [].

(** The same into p_vec, which has [nz] cells, then sorted: hash_mult_hw.h 155-168, 91-95 *)
Definition hwGatherSorted (size nz : nat) (keys : list (option nat)) (vals : list V) : res (list (nat * V)) :=
  '(pv, index) <- for_ 0 size (fun j st =>
    let '(pv, index) := st in
    x <- get keys j ;;
    match x with
    | None => Ok (pv, index)
    | Some k => v <- get vals j ;; pv <- set_ pv index (k, v) ;; Ok (pv, index + 1)
    end) (replicate nz (0, dflt), 0) ;;
  foldM (fun l j => x <- get (stdsort pv) j ;; Ok (l ++ [x])) (seq 0 index) [].

(** One row of the filling pass: hash_mult_hw.h 110-178 *)
Definition hwNum (sortOutput : bool) (A B : csr V) (ids rp : list nat) (i : nat) (s : list (option nat) * list V) :
    res (list (option nat) * list V * list (nat * V)) :=
  bid <- get ids i ;;
  if 0 <? bid then
    offset <- get rp i ;;
    let size := shRow bid in
    keys <- hwClear size (fst s) ;;
    '(keys, vals) <- prod_loop A B i (fun j k s =>
        a <- get (values A) j ;; b <- get (values B) k ;; c <- get (colids B) k ;; hwAdd size c (multop a b) s) (keys, snd s) ;;
    l <- (if sortOutput then e <- get rp (i + 1) ;; hwGatherSorted size (e - offset) keys vals else hwGather size keys vals) ;;
    Ok ((keys, vals), l)
  else Ok (s, []).

(** The table of thread [t], fresh (value-initialised): BIN.h 151-152 *)
Definition hwTable (b : bin) (ncols t : nat) : res (list (option nat)) :=
  sz <- localSize W (b_nz b) (b_off b) 8 ncols t ;; Ok (replicate sz (Some 0)).

(** HashSpGEMM with [nt] threads, the prefix sums run by [nts] threads: hash_mult_hw.h 183-207, 80-89.  The filling
    pass finds in its tables what the counting pass left there: any keys here; the values are fresh. *)
Definition hashSpGEMM_ends (sortOutput : bool) (top nts nt : nat) (A B C : csr V) : Prop :=
  exists b asg,
    set_max_bin_ends W top nts nt 8 (rowptr A) (colids A) (rowptr B) (rows A) (cols B) b /\
    chunks (b_off b) nt = Ok asg /\
    forall left : nat -> list (option nat),
    (forall t tab, t < nt -> hwTable b (cols B) t = Ok tab -> length (left t) = length tab) ->
    twoPass_ends dflt top nts (rows A) (cols B) (b_nz b)
      (hwTable b (cols B)) (hwSym A B (b_id b)) asg
      (fun t => tab <- hwTable b (cols B) t ;; Ok (left t, replicate (length tab) dflt))
      (fun rp => hwNum sortOutput A B (b_id b) rp) asg C.
End HashHw.
