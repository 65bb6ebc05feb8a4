(** Independent specification: what the text of a Matrix Market coordinate file is, and which entries it stands for.
    Nothing here refers to the model of the code. *)
From Coq Require Export Ascii String DecimalString Decimal.
From Verif Require Export Base.
Local Open Scope list_scope.

Notation text := (list ascii).
Definition txt (s : string) : text := list_ascii_of_string s.
Definition nlc : ascii := "010"%char.
Definition nul : ascii := "000"%char.

(** Decimal numerals, as printed by Coq's own library. *)
Definition showNat (n : nat) : text := txt (NilZero.string_of_uint (Nat.to_uint n)).
Definition showZ (z : Z) : text := if (z <? 0)%Z then "-"%char :: showNat (Z.to_nat (- z)) else showNat (Z.to_nat z).

(** The symmetry field of the banner. *)
Inductive symm := SymNo | SymYes | SymSkew.
Definition symm_txt (k : symm) : string :=
  match k with SymNo => "general" | SymYes => "symmetric" | SymSkew => "skew-symmetric" end.
(** The value field of the banner. *)
Inductive field := Integer | Real | Pattern.
Definition field_txt (k : field) : string := match k with Integer => "integer" | Real => "real" | Pattern => "pattern" end.

(** A file: banner, further comments, sizes, and one line per stored entry: row and column counted from 1 and, unless
    the field is "pattern", the value: an integer followed, in a real file, by a fraction (point and digits) or nothing. *)
Record mmfile := mkMM {
  mm_field : field; mm_symm : symm; mm_comments : list text;
  mm_rows : nat; mm_cols : nat; mm_entries : list (nat * nat * Z * text) }.

Definition banner (f : mmfile) : text :=
  txt "%MatrixMarket matrix coordinate " ++ txt (field_txt (mm_field f)) ++ txt " " ++ txt (symm_txt (mm_symm f)).
Definition sizeLine (f : mmfile) : text :=
  showNat (mm_rows f) ++ txt " " ++ showNat (mm_cols f) ++ txt " " ++ showNat (length (mm_entries f)).
Definition entryLine (k : field) (e : nat * nat * Z * text) : text :=
  let '(r, c, v, fr) := e in
  showNat r ++ txt " " ++ showNat c ++ match k with Pattern => [] | _ => txt " " ++ showZ v ++ fr end.
(** Lines, each ended by a newline. *)
Definition lines (l : list text) : text := mjoin ((fun t => t ++ [nlc]) <$> l).
Definition render (f : mmfile) : text :=
  lines ((fun c => "%"%char :: c) <$> (banner f :: mm_comments f)) ++ lines [sizeLine f] ++
  lines (entryLine (mm_field f) <$> mm_entries f).

(** [needle] occurs in [t]. *)
Definition occurs (needle t : text) : Prop := exists a b, t = a ++ needle ++ b.

(** Numbers that a C++ int can hold. *)
Definition intmax : Z := 2147483647.
(** Well-formed: no line has more than 255 characters (comments: not counting the %), the comments do not speak of symmetry, indices are in range, the numbers fit
    an int, fractions are a point and digits and occur in real files only. *)
Definition isDigit (c : ascii) : bool := (48 <=? nat_of_ascii c) && (nat_of_ascii c <=? 57).
Definition mm_wf (f : mmfile) : Prop :=
  Forall (fun c => nlc ∉ c /\ nul ∉ c /\ length c <= 255 /\ ~ occurs (txt "symmetric") c) (mm_comments f) /\
  Forall (fun l => length l <= 255) (sizeLine f :: (entryLine (mm_field f) <$> mm_entries f)) /\
  (Z.of_nat (mm_rows f) <= intmax)%Z /\ (Z.of_nat (mm_cols f) <= intmax)%Z /\ (2 * Z.of_nat (length (mm_entries f)) <= intmax)%Z /\
  Forall (fun e => let '(r, c, v, fr) := e in
    1 <= r <= mm_rows f /\ 1 <= c <= mm_cols f /\ (Z.abs v <= intmax)%Z /\
    (fr = [] \/ mm_field f = Real /\ exists ds, fr = "."%char :: ds /\ Forall (fun x => isDigit x = true) ds)) (mm_entries f).

(** The entries (row, column, value; counted from 0) a file stands for when all its values are integers: an entry of a symmetric
    file also stands for its mirror image, of a skew-symmetric one for the negated mirror image. *)
Definition values_integral (f : mmfile) : Prop := Forall (fun e => snd e = []) (mm_entries f).
Definition value_of (k : field) (v : Z) : Z := match k with Pattern => 1%Z | _ => v end.
Definition entry_means (f : mmfile) (e : nat * nat * Z * text) : list (nat * nat * Z) :=
  let '(r, c, v, _) := e in
  let x := value_of (mm_field f) v in
  match mm_symm f with
  | SymNo => [(r - 1, c - 1, x)]
  | SymYes => if r =? c then [(r - 1, c - 1, x)] else [(r - 1, c - 1, x); (c - 1, r - 1, x)]
  | SymSkew => if r =? c then [(r - 1, c - 1, x)] else [(r - 1, c - 1, x); (c - 1, r - 1, (- x)%Z)]
  end.
Definition means (f : mmfile) : list (nat * nat * Z) := mjoin (entry_means f <$> mm_entries f).
