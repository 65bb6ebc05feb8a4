(** What the R-MAT generator is meant to compute, in closed form: attempt k of an edge uses the draws k*L .. k*L+L-1 of
    stream 1 (L levels), one per level, and four draws of streams 3 and 4 per level. *)
From Verif Require Export RmatModel GtSpec.
From Verif Require Import Base Spec.

Section Rmat.
Context {D : Type} (fadd fsub fmul fdiv : D -> D -> D) (fltb : D -> D -> bool) (f005 f05 : D).
Context (s1 s3 s4 : nat -> D).
Notation params := (D * D * D * D)%type.

(** A probability moved up or down by at most 5 per cent. *)
Definition moved (up : bool) (x r : D) : D := (if up then fadd else fsub) x (fmul (fmul x f005) r).
(** The next parameters, from the draws t .. t+3; the second one is never moved down. *)
Definition nextPar (p : params) (t : nat) : params :=
  let '(a, b, c, d) := p in
  let a' := moved (fltb f05 (s4 t)) a (s3 t) in
  let b' := moved true b (s3 (t + 1)) in
  let c' := moved (fltb f05 (s4 (t + 2))) c (s3 (t + 2)) in
  let d' := moved (fltb f05 (s4 (t + 3))) d (s3 (t + 3)) in
  let S := fadd (fadd (fadd a' b') c') d' in
  (fdiv a' S, fdiv b' S, fdiv c' S, fdiv d' S).
(** The parameters at level l of the attempt whose draws start at t. *)
Fixpoint parAt (p0 : params) (t l : nat) : params :=
  match l with 0 => p0 | S l' => nextPar (parAt p0 t l') (4 * (t + l')) end.

(** The quadrant a draw falls into: (lower half?, right half?). *)
Definition quad (p : D) (q : params) : nat * nat :=
  let '(a, b, c, d) := q in
  if fltb p a then (0, 0)
  else if fltb a p && fltb p (fadd a b) then (0, 1)
  else if fltb (fadd a b) p && fltb p (fadd (fadd a b) c) then (1, 0)
  else if fltb (fadd (fadd a b) c) p && fltb p (fadd (fadd (fadd a b) c) d) then (1, 1)
  else (0, 0).
(** Attempt k with n vertices: at level l the chosen quadrant adds n / 2^(l+1) to the start and/or the end. *)
Definition quadAt (n : nat) (p0 : params) (k l : nat) : nat * nat :=
  quad (s1 (k * Nat.log2 n + l)) (parAt p0 (k * Nat.log2 n) l).
Definition edgeOf (n : nat) (p0 : params) (k : nat) : nat * nat :=
  (sum_list ((fun l => fst (quadAt n p0 k l) * (n / 2 ^ (l + 1))) <$> seq 0 (Nat.log2 n)),
   sum_list ((fun l => snd (quadAt n p0 k l) * (n / 2 ^ (l + 1))) <$> seq 0 (Nat.log2 n))).
(** The attempts below K that are not self loops. *)
Definition accepted (n : nat) (p0 : params) (K : nat) : list (nat * nat) :=
  filter (fun e => fst e <> snd e) (edgeOf n p0 <$> seq 0 K).
End Rmat.
