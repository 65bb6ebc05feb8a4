(** Model of csr2csc_atomic_nosort (util/transpose.h 12-52).  Simplification: the counters and dloc are
    unbounded naturals ([std::atomic<int>] and IT in the code). *)
From Verif Require Export MatModel.

(** Thread code of the first loop: [std::atomic_fetch_add(&cell, 1)] is one indivisible step. *)
Inductive aprog : Type :=
| ARet
| AFadd (l : loc) (k : nat -> aprog)
| AWr (l : loc) (v : nat) (k : aprog)
| AFail (f : fault).

(** Memory and threads of that loop: util/transpose.h 26-33 *)
Definition acfg : Type := gmap loc nat * list aprog.

(** One step of one thread.  util/transpose.h 31. *)
Inductive astep : acfg -> acfg -> Prop :=
| astep_fadd m ps t l k v : ps !! t = Some (AFadd l k) -> m !! l = Some v ->
    astep (m, ps) (<[l := v + 1]> m, <[t := k v]> ps)
| astep_wr m ps t l v k : ps !! t = Some (AWr l v k) -> is_Some (m !! l) ->
    astep (m, ps) (<[l := v]> m, <[t := k]> ps).

(** The next step of a thread is a fault: util/transpose.h 26-33 *)
Definition athread_fault (m : gmap loc nat) (p : aprog) (f : fault) : Prop :=
  match p with
  | AFail f' => f = f'
  | AFadd l _ => m !! l = None /\ f = OutOfBounds
  | AWr l _ _ => m !! l = None /\ f = OutOfBounds
  | ARet => False
  end.

(** Outcomes of the first loop: some thread faults, or all threads reach the end.  util/transpose.h 26-33. *)
Inductive aoutcome (c : acfg) : res (gmap loc nat) -> Prop :=
| aout_fault m ps t p f : rtc astep c (m, ps) -> ps !! t = Some p -> athread_fault m p f -> aoutcome c (Err f)
| aout_done m ps : rtc astep c (m, ps) -> Forall (fun p => p = ARet) ps -> aoutcome c (Ok m).

(** A data race: two threads about to access the same cell, one of them not atomically.  util/transpose.h 31. *)
Definition anext (p : aprog) : option (loc * bool) :=
  match p with AFadd l _ => Some (l, true) | AWr l _ _ => Some (l, false) | _ => None end.
(** util/transpose.h 26-33 *)
Definition arace (c : acfg) : Prop :=
  exists t u p q l b1 b2, t <> u /\ c.2 !! t = Some p /\ c.2 !! u = Some q /\
    anext p = Some (l, b1) /\ anext q = Some (l, b2) /\ (b1 && b2 = false).

(** The arrays of the first loop: 0 = atomicColPtr, 1 = dloc. *)
Definition aCnt : nat := 0.
(** dloc: util/transpose.h 25 *)
Definition aDloc : nat := 1.

Section Trans.
Context {V : Type}.

(** util/transpose.h 29-32: the entries of a row, then the rest of the thread's code *)
Fixpoint fetchRow (ci : list nat) (n j : nat) (rest : aprog) : aprog :=
  match n with
  | O => rest
  | S n' => match get ci j with
            | Err f => AFail f
            | Ok c => AFadd (aCnt, c) (fun v => AWr (aDloc, j) v (fetchRow ci n' (S j) rest))
            end
  end.

(** util/transpose.h 26-33: one thread's share of the rows *)
Fixpoint fetchRows (A : csr V) (its : list nat) : aprog :=
  match its with
  | [] => ARet
  | i :: its' =>
      match (b <- get (rowptr A) i ;; e <- get (rowptr A) (i + 1) ;; Ok (b, e)) with
      | Err f => AFail f
      | Ok (b, e) => fetchRow (colids A) (e - b) b (fetchRows A its')
      end
  end.

(** util/transpose.h 16-25: atomicColPtr with its n zeroed cells, dloc zeroed by [new IT[nnz]()].  [past] is what
    may be read and written behind the n cells: nothing, [[]], in the code as it stands. *)
Definition fetchMem (past : list nat) (A : csr V) : gmap loc nat :=
  cells aCnt (replicate (cols A) 0 ++ past) ∪ cells aDloc (replicate (nnz A) 0).

(** The contents of array [a].  util/transpose.h 16, 25. *)
Definition holds (m : gmap loc nat) (a : nat) (l : list nat) : Prop := forall i, l !! i = m !! (a, i).

(** util/transpose.h 34-38: note [i <= n] *)
Definition colPtrLoop (n : nat) (cnts cp : list nat) : res (list nat) :=
  cp0 <- set_ cp 0 0 ;;
  for_ 0 (n + 1) (fun i cp => a <- get cnts i ;; p <- get cp i ;; set_ cp (i + 1) (a + p)) cp0.

(** util/transpose.h 43-50: row [i] of the second loop; cscColPtr and dloc are only read by now *)
Definition fillRow (A : csr V) (cp dloc : list nat) (i : nat) : prog loc (cellv V) unit :=
  pbind (lift (get (rowptr A) i)) (fun b =>
  pbind (lift (get (rowptr A) (i + 1))) (fun e =>
  pfor b e (fun j _ =>
    pbind (lift (get (colids A) j)) (fun c =>
    pbind (lift (get cp c)) (fun p =>
    pbind (lift (get dloc j)) (fun d =>
    Wr (aIds, p + d) (CN i) (
    pbind (lift (get (values A) j)) (fun v =>
    Wr (aVals, p + d) (CV v) (Ret tt))))))) tt)).

(** util/transpose.h 12-52: the whole function; the result is the contents of cscColPtr, cscRowIdx, cscVal.
    The argument nnz is the number of entries of the matrix. *)
Inductive csr2csc_outcome (past : list nat) (A : csr V) (cp0 ri0 : list nat) (cv0 : list V) :
    res (list nat * list nat * list V) -> Prop :=
| co_fetch asg f : schedule (rows A) asg -> aoutcome (fetchMem past A, fetchRows A <$> asg) (Err f) ->
    csr2csc_outcome past A cp0 ri0 cv0 (Err f)
| co_ptr asg m cnts f : schedule (rows A) asg -> aoutcome (fetchMem past A, fetchRows A <$> asg) (Ok m) ->
    holds m aCnt cnts -> colPtrLoop (cols A) cnts cp0 = Err f ->
    csr2csc_outcome past A cp0 ri0 cv0 (Err f)
| co_fill asg m cnts cp dloc asg2 f : schedule (rows A) asg -> aoutcome (fetchMem past A, fetchRows A <$> asg) (Ok m) ->
    holds m aCnt cnts -> colPtrLoop (cols A) cnts cp0 = Ok cp -> holds m aDloc dloc -> schedule (rows A) asg2 ->
    outcome (arrays ri0 cv0, runIts (fillRow A cp dloc) <$> asg2) (Err f) ->
    csr2csc_outcome past A cp0 ri0 cv0 (Err f)
| co_done asg m cnts cp dloc asg2 ri cv rs : schedule (rows A) asg -> aoutcome (fetchMem past A, fetchRows A <$> asg) (Ok m) ->
    holds m aCnt cnts -> colPtrLoop (cols A) cnts cp0 = Ok cp -> holds m aDloc dloc -> schedule (rows A) asg2 ->
    outcome (arrays ri0 cv0, runIts (fillRow A cp dloc) <$> asg2) (Ok (arrays ri cv, rs)) ->
    csr2csc_outcome past A cp0 ri0 cv0 (Ok (cp, ri, cv)).
End Trans.
