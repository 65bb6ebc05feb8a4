(** Threads over a shared memory, any interleaving.  A phase is the code between two barriers of an
    OpenMP parallel region; one step is one shared read or write (sequentially consistent memory). *)
From stdpp Require Export gmap.
From Verif Require Export Base.

Section Prog.
Context {L Val : Type} `{Countable L}.

(** A thread: private computation is inside the continuations. *)
Inductive prog (R : Type) : Type :=
| Ret (r : R)
| Rd (l : L) (k : Val -> prog R)
| Wr (l : L) (v : Val) (k : prog R)
| Fail (f : fault).
Global Arguments Ret {R}. Global Arguments Rd {R}. Global Arguments Wr {R}. Global Arguments Fail {R}.

Fixpoint pbind {R S} (p : prog R) (k : R -> prog S) : prog S :=
  match p with
  | Ret r => k r
  | Rd l c => Rd l (fun v => pbind (c v) k)
  | Wr l v c => Wr l v (pbind c k)
  | Fail f => Fail f
  end.

(** Private computation that may fault. *)
Definition lift {R} (r : res R) : prog R := match r with Ok x => Ret x | Err f => Fail f end.

Notation mem := (gmap L Val).
Definition cfg R : Type := mem * list (prog R).

(** One step of one thread; the location must exist. *)
Inductive step {R} : cfg R -> cfg R -> Prop :=
| step_rd m ps t l k v : ps !! t = Some (Rd l k) -> m !! l = Some v -> step (m, ps) (m, <[t := k v]> ps)
| step_wr m ps t l v k : ps !! t = Some (Wr l v k) -> is_Some (m !! l) ->
    step (m, ps) (<[l := v]> m, <[t := k]> ps).

(** A thread has faulted: failed assertion or similar, or it is about to access a missing location. *)
Definition thread_fault {R} (m : mem) (p : prog R) (f : fault) : Prop :=
  match p with
  | Fail f' => f = f'
  | Rd l _ => m !! l = None /\ f = OutOfBounds
  | Wr l _ _ => m !! l = None /\ f = OutOfBounds
  | Ret _ => False
  end.

(** Outcomes of a phase: some thread faults, or all threads reach the barrier. *)
Inductive outcome {R} (c : cfg R) : res (mem * list R) -> Prop :=
| out_fault m ps t p f : rtc step c (m, ps) -> ps !! t = Some p -> thread_fault m p f -> outcome c (Err f)
| out_done m rs : rtc step c (m, Ret <$> rs) -> outcome c (Ok (m, rs)).

(** A phase is deterministic with result [o]: it always ends, and can only end with [o]. *)
Definition always {R} (c : cfg R) (m : mem) (rs : list R) : Prop :=
  (forall o, outcome c o -> o = Ok (m, rs)) /\
  (exists n, forall k c', nsteps step k c c' -> k <= n) /\
  outcome c (Ok (m, rs)).

(** A conflict: two threads, next steps on the same location, at least one a write. *)
Definition nextloc {R} (p : prog R) : option (L * bool) :=
  match p with Rd l _ => Some (l, false) | Wr l _ _ => Some (l, true) | _ => None end.
Definition race {R} (c : cfg R) : Prop :=
  exists t u p q l b1 b2, t <> u /\ c.2 !! t = Some p /\ c.2 !! u = Some q /\
    nextloc p = Some (l, b1) /\ nextloc q = Some (l, b2) /\ (b1 || b2 = true).
Definition race_free {R} (c : cfg R) : Prop := forall c', rtc step c c' -> ~ race c'.

(** [for (i = lo; i < lo + n; ++i)] in thread code. *)
Fixpoint pfor_n {S} (n lo : nat) (body : nat -> S -> prog S) (s : S) : prog S :=
  match n with
  | O => Ret s
  | Datatypes.S n' => pbind (body lo s) (pfor_n n' (Datatypes.S lo) body)
  end.
Definition pfor {S} (lo hi : nat) (body : nat -> S -> prog S) (s : S) : prog S := pfor_n (hi - lo) lo body s.

(** A parallel region: phases separated by barriers; [S] is what a thread keeps from phase to phase,
    [E] other program objects, changed only by [PMaster] (omp master between barriers: thread 0
    alone, the others wait). *)
Inductive phase (E S : Type) : Type :=
| PPar (f : E -> nat -> S -> prog S)
| PMaster (f : S -> E -> mem -> res (E * mem)).
Global Arguments PPar {E S}. Global Arguments PMaster {E S}.

Inductive region_outcome {E S} : list (phase E S) -> E -> mem -> list S -> res (E * mem * list S) -> Prop :=
| ro_nil e m ss : region_outcome [] e m ss (Ok (e, m, ss))
| ro_par_fault f phs e m ss flt : outcome (m, imap (f e) ss) (Err flt) -> region_outcome (PPar f :: phs) e m ss (Err flt)
| ro_par f phs e m ss m1 ss1 o : outcome (m, imap (f e) ss) (Ok (m1, ss1)) -> region_outcome phs e m1 ss1 o ->
    region_outcome (PPar f :: phs) e m ss o
| ro_master_fault f phs e m s0 ss flt : f s0 e m = Err flt -> region_outcome (PMaster f :: phs) e m (s0 :: ss) (Err flt)
| ro_master f phs e m s0 ss e1 m1 o : f s0 e m = Ok (e1, m1) -> region_outcome phs e1 m1 (s0 :: ss) o ->
    region_outcome (PMaster f :: phs) e m (s0 :: ss) o.

(** Every phase always ends, and always in the same way. *)
Inductive region_always {E S} : list (phase E S) -> E -> mem -> list S -> E -> mem -> list S -> Prop :=
| ra_nil e m ss : region_always [] e m ss e m ss
| ra_par f phs e m ss m1 ss1 e' m' ss' : always (m, imap (f e) ss) m1 ss1 -> region_always phs e m1 ss1 e' m' ss' ->
    region_always (PPar f :: phs) e m ss e' m' ss'
| ra_master f phs e m s0 ss e1 m1 e' m' ss' : f s0 e m = Ok (e1, m1) -> region_always phs e1 m1 (s0 :: ss) e' m' ss' ->
    region_always (PMaster f :: phs) e m (s0 :: ss) e' m' ss'.

(** Every phase, started in any state it can be started in, is free of conflicting accesses. *)
Inductive region_race_free {E S} : list (phase E S) -> E -> mem -> list S -> Prop :=
| rf_nil e m ss : region_race_free [] e m ss
| rf_par f phs e m ss : race_free (m, imap (f e) ss) ->
    (forall m1 ss1, outcome (m, imap (f e) ss) (Ok (m1, ss1)) -> region_race_free phs e m1 ss1) ->
    region_race_free (PPar f :: phs) e m ss
| rf_master f phs e m s0 ss : (forall e1 m1, f s0 e m = Ok (e1, m1) -> region_race_free phs e1 m1 (s0 :: ss)) ->
    region_race_free (PMaster f :: phs) e m (s0 :: ss).

End Prog.
Arguments prog _ _ _ : clear implicits.
Arguments phase _ _ {_ _} _ _.
