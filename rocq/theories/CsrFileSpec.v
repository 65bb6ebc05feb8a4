(** Independent specification: the rows of the matrix that a Matrix Market file stands for, for values of any type.
    Nothing here refers to the model of the code. *)
From Verif Require Export IoSpec.
From Verif Require Import Base.
Local Open Scope list_scope.

(** A point and digits, or nothing. *)
Definition is_fraction (fr : text) : Prop := fr = [] \/ exists ds, fr = "."%char :: ds /\ Forall (fun x => isDigit x = true) ds.

Section Stands.
(** [num v fr]: the value of the numeral [v] with the fraction [fr]; [one]: the value of an entry of a pattern; [neg]: the negated value. *)
Context {V : Type} (num : Z -> text -> V) (one : V) (neg : V -> V).

(** A function that reads numbers: the numeral at the front, whether or not the line ends behind it. *)
Definition reads (f : text -> V) : Prop :=
  forall v fr t, is_fraction fr -> t = [] \/ t = [nlc] -> f (showZ v ++ fr ++ t) = num v fr.

(** The entries (row, column, value; counted from 0) an entry line stands for. *)
Definition stands1 (f : mmfile) (e : nat * nat * Z * text) : list (nat * nat * V) :=
  let '(r, c, v, fr) := e in
  let x := match mm_field f with Pattern => one | _ => num v fr end in
  match mm_symm f with
  | SymNo => [(r - 1, c - 1, x)]
  | SymYes => if r =? c then [(r - 1, c - 1, x)] else [(r - 1, c - 1, x); (c - 1, r - 1, x)]
  | SymSkew => if r =? c then [(r - 1, c - 1, x)] else [(r - 1, c - 1, x); (c - 1, r - 1, neg x)]
  end.
Definition stands (f : mmfile) : list (nat * nat * V) := mjoin (stands1 f <$> mm_entries f).
End Stands.

(** The entries of row [r], in order: column and value. *)
Definition in_row {V} (l : list (nat * nat * V)) (r : nat) : list (nat * V) :=
  (fun e => (snd (fst e), snd e)) <$> filter (fun e => fst (fst e) = r) l.

(** Well-formed, but for the comments: no line has more than 254 characters; indices are in range; the sizes fit an int and so does the number of rows
    plus one; a file that is not general is square. *)
Definition body_wf (f : mmfile) : Prop :=
  Forall (fun l => length l <= 254) (sizeLine f :: (entryLine (mm_field f) <$> mm_entries f)) /\
  (Z.of_nat (mm_rows f) + 1 <= intmax)%Z /\ (Z.of_nat (mm_cols f) <= intmax)%Z /\ (2 * Z.of_nat (length (mm_entries f)) <= intmax)%Z /\
  Forall (fun e => let '(r, c, v, fr) := e in
    1 <= r <= mm_rows f /\ 1 <= c <= mm_cols f /\ (fr = [] \/ mm_field f = Real /\ is_fraction fr)) (mm_entries f) /\
  (mm_symm f = SymNo \/ mm_rows f = mm_cols f).
(** The comments: one line each, not too long. *)
Definition comments_wf (f : mmfile) : Prop :=
  Forall (fun c => nlc ∉ c /\ nul ∉ c /\ length c <= 253) (mm_comments f).
(** They do not contain the word "general" (in a general file they may). *)
Definition comments_quiet (f : mmfile) : Prop :=
  mm_symm f = SymNo \/ Forall (fun c => ~ occurs (txt "general") c) (mm_comments f).

(** The text of the file, with or without the last newline. *)
Definition whole_text (f : mmfile) (t : text) : Prop := t = render f \/ t ++ [nlc] = render f.

(** Column by column, rows ascending: the usual order of entries. *)
Definition by_column (f : mmfile) : Prop :=
  StronglySorted (fun a b : nat * nat * Z * text =>
    snd (fst (fst a)) < snd (fst (fst b)) \/ snd (fst (fst a)) = snd (fst (fst b)) /\ fst (fst (fst a)) < fst (fst (fst b))) (mm_entries f).
(** All entries on or below the diagonal. *)
Definition lower (f : mmfile) : Prop := Forall (fun e : nat * nat * Z * text => snd (fst (fst e)) <= fst (fst (fst e))) (mm_entries f).
