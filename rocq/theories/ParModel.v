(** [#pragma omp parallel for] without reduction, as in CSR.h 668, 707, 735; CSC.h 262, 307, 313, 450,
    498; util/transpose.h 26, 41; utility.h 135.  Modelling vocabulary shared by those functions. *)
From Verif Require Export Conc.

Section ParFor.
Context {L Val : Type} `{Countable L}.

(** One thread of the loop: it runs the iterations given to it, in the given order.  E.g. CSR.h 667-685. *)
Fixpoint runIts (body : nat -> prog L Val unit) (its : list nat) : prog L Val unit :=
  match its with
  | [] => Ret tt
  | i :: its' => pbind (body i) (fun _ => runIts body its')
  end.

(** Every distribution of the iterations [0, n) over threads, each thread's share in any order. *)
Definition schedule (n : nat) (asg : list (list nat)) : Prop := mjoin asg ≡ₚ seq 0 n.

(** The loop over [n] iterations, started with memory [m], always ends, and always with memory [m'],
    whatever the distribution of the iterations and whatever the interleaving of the threads.
    [#pragma omp parallel for], e.g. CSR.h 667. *)
Definition parfor_ends (body : nat -> prog L Val unit) (n : nat) (m m' : gmap L Val) : Prop :=
  forall asg, schedule n asg -> always (m, runIts body <$> asg) m' (replicate (length asg) tt).

(** No two threads ever access the same cell at the same time with one of them writing.  E.g. CSR.h 667-685. *)
Definition parfor_race_free (body : nat -> prog L Val unit) (n : nat) (m : gmap L Val) : Prop :=
  forall asg, schedule n asg -> race_free (m, runIts body <$> asg).
End ParFor.
