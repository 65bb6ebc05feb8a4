(** Reading a matrix from a file (IO.h: ReadASCII, ReadASCII_Triples, ReadBinary).

    Simplifications.  The index type holds every int, and its own overflow (only at nnz *= 2) is an error; indices are kept as integers, so an
    index 0 in the file becomes -1 (in an unsigned type the largest value).  A size with a minus sign, for which the
    allocation throws or asks for too much memory, is an error.  Reading errors of the device (badbit) do not occur.  The three arrays of ReadASCII_Triples
    are written at the same places and are kept as one array of triples.  Messages, timing, and the
    release of the arrays are left out. *)
From Coq Require Export Ascii String.
From Verif Require Export MatModel.
From Verif Require Export Base Spec.
Local Open Scope list_scope.

(** std::ifstream: characters read (last first), characters to come, eofbit, failbit.  IO.h 65, 156. *)
Record ifs := mkIfs { past : list ascii; rest : list ascii; eofb : bool; failb : bool }.
(** Opening a file; [None]: there is no such file.  IO.h 65, 156 *)
Definition openFile (f : option (list ascii)) : ifs :=
  match f with Some t => mkIfs [] t false false | None => mkIfs [] [] false true end.
(** The stream is usable (getline sets failbit otherwise): IO.h 70, 79, 94 *)
Definition good (s : ifs) : bool := negb (eofb s) && negb (failb s).

(** infile.get(); [None] is EOF.  IO.h 67, 75, 158, 166 *)
Definition getc (s : ifs) : option ascii * ifs :=
  if good s then
    match rest s with
    | [] => (None, mkIfs (past s) [] true true)
    | c :: r => (Some c, mkIfs (c :: past s) r false false)
    end
  else (None, mkIfs (past s) (rest s) (eofb s) true).
(** infile.unget() after at least one get().  IO.h 77, 168 *)
Definition ungetc (s : ifs) : ifs :=
  let s := mkIfs (past s) (rest s) false (failb s) in
  if good s then match past s with c :: p => mkIfs p (c :: rest s) false false | [] => s end else s.

(** infile.getline(line, 256): up to 255 characters are stored; a longer line sets failbit, and so does
    a line without any character before the end of the file.  The result is the string in [line].  IO.h 70, 79, 94, 161, 174, 190 *)
Fixpoint lineLoop (k : nat) (p r acc : list ascii) (none : bool) {struct r} : list ascii * ifs :=
  match r with
  | [] => (acc, mkIfs p [] true none)
  | c :: r' =>
      if Ascii.eqb c "010" then (acc, mkIfs (c :: p) r' false false)
      else match k with
           | 0 => (acc, mkIfs p r false true)
           | S k' => lineLoop k' (c :: p) r' (acc ++ [c]) false
           end
  end.
(** The string in a char array ends at the first NUL.  char line[256]: IO.h 66, 157. *)
Fixpoint cstr (l : list ascii) : list ascii :=
  match l with [] => [] | c :: l => if Ascii.eqb c "000" then [] else c :: cstr l end.
(** infile.getline(line, 256): IO.h 70, 79, 94, 161, 174, 190 *)
Definition getline (s : ifs) : list ascii * ifs :=
  if good s then let '(l, s) := lineLoop 255 (past s) (rest s) [] true in (cstr l, s)
  else ([], mkIfs (past s) (rest s) (eofb s) true).

(** isspace, in the C locale (used by atoi and operator>>).  IO.h 81-82, 96, 99, 104. *)
Definition isSpace (c : ascii) : bool :=
  let n := nat_of_ascii c in (n =? 32) || ((9 <=? n) && (n <=? 13)).
(** Leading white space: IO.h 81-82, 96, 99, 104 *)
Fixpoint skipSpace (l : list ascii) : list ascii :=
  match l with c :: l' => if isSpace c then skipSpace l' else l | [] => [] end.
(** A decimal digit.  IO.h 81-82, 96, 99, 104. *)
Definition digit (c : ascii) : option Z :=
  let n := nat_of_ascii c in if (48 <=? n) && (n <=? 57) then Some (Z.of_nat (n - 48)) else None.
(** The digits at the front of [l], after [acc]; the rest.  IO.h 81-82, 96, 99, 104. *)
Fixpoint digits (acc : Z) (l : list ascii) : Z * list ascii :=
  match l with
  | c :: l' => match digit c with Some d => digits (10 * acc + d) l' | None => (acc, l) end
  | [] => (acc, [])
  end.
(** atoi: white space, sign, digits (none: 0); undefined when the number does not fit an int.  IO.h 96, 99, 104, 192, 195, 201 *)
Definition atoi (l : list ascii) : res Z :=
  let l := skipSpace l in
  let z := match l with
           | c :: l' => if Ascii.eqb c "-" then Z.opp (fst (digits 0 l'))
                        else if Ascii.eqb c "+" then fst (digits 0 l') else fst (digits 0 l)
           | [] => 0%Z
           end in
  if ((-2147483648 <=? z) && (z <=? 2147483647))%Z then Ok z else Err OutOfBounds.
(** strchr(ch, ' '): the string from there on.  IO.h 97, 100, 193, 196 *)
Fixpoint strchr (l : list ascii) : option (list ascii) :=
  match l with [] => None | c :: l' => if Ascii.eqb c " " then Some l else strchr l' end.
(** strstr(line, needle) != NULL.  IO.h 71, 162 *)
Fixpoint isPrefix (p l : list ascii) : bool :=
  match p, l with [], _ => true | a :: p, b :: l => Ascii.eqb a b && isPrefix p l | _ :: _, [] => false end.
(** strstr: IO.h 71, 162 *)
Fixpoint strstr (needle l : list ascii) : bool :=
  isPrefix needle l || match l with [] => false | _ :: l' => strstr needle l' end.

(** ss >> x for an index variable (IO.h 81-82, 175-176), with the largest value [imax]: the value stored ([None]: the
    variable is left as it was, here uninitialised), what is left of the stream, and whether it is still good. *)
Definition extract (imax : Z) (s : list ascii * bool) : res (option Z * (list ascii * bool)) :=
  let '(l, ok) := s in
  if negb ok then Ok (None, s) else
  match skipSpace l with
  | [] => Ok (None, ([], false))
  | c :: l' =>
      if Ascii.eqb c "-" then Err AssertFail else
      let ds := if Ascii.eqb c "+" then l' else c :: l' in
      match ds with
      | d :: _ => match digit d with
                  | Some _ => let '(z, r) := digits 0 ds in
                              if (z <=? imax)%Z then Ok (Some z, (r, true)) else Ok (Some imax, (r, false))
                  | None => Ok (Some 0%Z, (ds, false))
                  end
      | [] => Ok (Some 0%Z, ([], false))
      end
  end.
(** Use of a variable.  m, n, nnz are not initialised: IO.h 80, 173. *)
Definition used {A} (x : option A) : res A := match x with Some a => Ok a | None => Err Uninit end.

(** The comment loop, from the character [c] on: IO.h 68-77, 159-168.  Result: isSymmetric and the stream. *)
Fixpoint commentLoop (fuel : nat) (c : option ascii) (sym : bool) (s : ifs) : res (bool * ifs) :=
  match fuel with
  | 0 => Err OutOfFuel
  | S fuel =>
      match c with
      | Some c =>
          if Ascii.eqb c "%" then
            let '(line, s) := getline s in
            let sym := sym || strstr (list_ascii_of_string "symmetric") line in
            let '(c, s) := getc s in
            commentLoop fuel c sym s
          else Ok (sym, ungetc s)
      | None => Ok (sym, ungetc s)
      end
  end.

Section Io.
Context {V : Type} (ofInt : Z -> V).

(** One entry line: row, column (as in the file) and value.  IO.h 94-109, 190-203.  Without a first space the pointer is NULL, which is then
    advanced and read. *)
Definition parseLine (line : list ascii) : res (Z * Z * V) :=
  r <- atoi line ;;
  match strchr line with
  | Some (_ :: ch) =>
      c <- atoi ch ;;
      match strchr ch with
      | Some (_ :: ch) => v <- atoi ch ;; Ok (r, c, ofInt v)
      | _ => Ok (r, c, ofInt 1)
      end
  | _ => Err OutOfBounds
  end.

(** rand() % 10 + 7 at the [k]-th call, if rand_vals is set.  IO.h 205-206 *)
Context (rand : option (nat -> V)) (remove_diags : bool).

(** The entry loop: IO.h 92-125 (where remove_diags and rand_vals are false) and 188-232.  [k]: number of lines read.  With remove_diags
    an entry on the diagonal lowers nnz and is left out. *)
Fixpoint entryLoop (fuel k : nat) (sym : bool) (s : ifs) (cnz nz : nat) (arr : list (option (Z * Z * V)))
    : res (nat * nat * list (option (Z * Z * V))) :=
  match fuel with
  | 0 => Err OutOfFuel
  | S fuel =>
      if eofb s || negb (cnz <? nz) then Ok (cnz, nz, arr)
      else
        let '(line, s) := getline s in
        '(rid, cid, v) <- parseLine line ;;
        let v := match rand with Some f => f k | None => v end in
        if remove_diags && Z.eqb rid cid then
          entryLoop fuel (S k) sym s cnz (if sym then nz - 1 - 1 else nz - 1) arr
        else
          arr <- set_ arr cnz (Some ((rid - 1)%Z, (cid - 1)%Z, v)) ;;
          if sym then
            if negb (Z.eqb (rid - 1) (cid - 1)) then
              arr <- set_ arr (cnz + 1) (Some ((cid - 1)%Z, (rid - 1)%Z, v)) ;;
              entryLoop fuel (S k) sym s (cnz + 1 + 1) nz arr
            else entryLoop fuel (S k) sym s (cnz + 1) (nz - 1) arr
          else entryLoop fuel (S k) sym s (cnz + 1) nz arr
  end.

(** Both functions up to the point where the triples are complete: IO.h 61-127, 144-234.  Result: m, n and the first nnz triples.
    Without a file the loop is skipped. *)
Definition readTriples (imax : Z) (f : option (list ascii)) : res (nat * nat * list (Z * Z * V)) :=
  let s := openFile f in
  let '(c, s) := getc s in
  '(sym, s) <- commentLoop (length (rest s) + 2) c false s ;;
  let '(line, s) := getline s in
  '(m, ss) <- extract imax (line, true) ;;
  '(n, ss) <- extract imax ss ;;
  '(nz, _) <- extract imax ss ;;
  nz <- used nz ;;
  nz <- (if sym then if (2 * nz <=? imax)%Z then Ok (2 * nz)%Z else Err OutOfBounds else Ok nz) ;;
  let nz := Z.to_nat nz in
  '(nz, arr) <-
    match f with
    | Some _ =>
        '(cnz, nz, arr) <- entryLoop (length (rest s) + 2) 0 sym s 0 nz (replicate nz None) ;;
        _ <- assert_ (cnz =? nz) ;;
        Ok (nz, arr)
    | None => Ok (nz, replicate nz None)
    end ;;
  its <- foldM (fun its i => x <- getI arr i ;; Ok (its ++ [x])) (seq 0 nz) [] ;;
  m <- used m ;; n <- used n ;;
  Ok (Z.to_nat m, Z.to_nat n, its).

End Io.

(** An index used as an array subscript.  IO.h 135; CSC.h 237-278. *)
Definition asIndex (z : Z) : res nat := if (0 <=? z)%Z then Ok (Z.to_nat z) else Err OutOfBounds.

(** [ReadASCII]: the triples go to CSC(triples, nnz, m, n) (IO.h 135, CSC.h 237-278), whose result is assigned to csc.
    [r]: how the call ends.  A negative column is an error in that constructor (CSC.h 249-252); a negative row would be
    stored, here it is an error too. *)
Definition readASCII {V} (ofInt : Z -> V) (dflt : V) (stdsort : list (nat * V) -> list (nat * V)) (imax : Z) (f : option (list ascii)) (r : res (csc V)) : Prop :=
  match ('(m, n, its) <- readTriples ofInt None false imax f ;;
         its <- foldM (fun its '(r, c, v) => r <- asIndex r ;; c <- asIndex c ;; Ok (its ++ [(r, c, v)])) its [] ;;
         Ok (m, n, its)) with
  | Err e => r = Err e
  | Ok (m, n, its) => exists X, r = Ok X /\ cscOfItems_ends dflt stdsort its (length its) m n X
  end.

Section Binary.
(** sizeof(IT), sizeof(NT), and the number or value in so many bytes. *)
Context {V : Type} (szI szV : nat) (decI : list ascii -> Z) (decV : list ascii -> V).

(** fread(ptr, sz, n, f): the complete items read and the rest of the file.  IO.h 22-24, 38-40 *)
Fixpoint fread {A} (sz : nat) (dec : list ascii -> A) (n : nat) (s : list ascii) : list A * list ascii :=
  match n with
  | 0 => ([], s)
  | S n => if sz <=? length s then let '(l, r) := fread sz dec n (drop sz s) in (dec (take sz s) :: l, r) else ([], [])
  end.

(** [ReadBinary] up to the construction of the matrix: IO.h 12-52.  [Ok None]: the function returns -1.  Simplification: with
    nnz > 0 items wanted the result of fread is the whole array or shorter, so the three arrays are the items read. *)
Definition readBinaryArrays (f : option (list ascii)) : res (option (nat * nat * list Z * list Z * list V)) :=
  match f with
  | None => Ok None
  | Some t =>
      let '(hm, s) := fread szI decI 1 t in
      let '(hn, s) := fread szI decI 1 s in
      let '(hz, s) := fread szI decI 1 s in
      m <- used (head hm) ;;
      if (m <=? 0)%Z then Ok None else
      n <- used (head hn) ;;
      if (n <=? 0)%Z then Ok None else
      nz <- used (head hz) ;;
      if (nz <=? 0)%Z then Ok None else
      let k := Z.to_nat nz in
      let '(ri, s) := fread szI decI k s in
      let '(ci, s) := fread szI decI k s in
      let '(vals, _) := fread szV decV k s in
      if negb (length ri =? k) || negb (length ci =? k) || negb (length vals =? k) then Ok None
      else Ok (Some (Z.to_nat m, Z.to_nat n, ri, ci, vals))
  end.

(** [ReadBinary]: IO.h 12-57; the constructor from three arrays, CSC.h 473-512. *)
Definition readBinary (dflt : V) (stdsort : list (nat * V) -> list (nat * V)) (f : option (list ascii)) (r : res (option (csc V))) : Prop :=
  match (x <- readBinaryArrays f ;;
         match x with
         | None => Ok None
         | Some (m, n, ri, ci, vals) =>
             ri <- foldM (fun l z => i <- asIndex z ;; Ok (l ++ [i])) ri [] ;;
             ci <- foldM (fun l z => i <- asIndex z ;; Ok (l ++ [i])) ci [] ;;
             Ok (Some (m, n, ri, ci, vals))
         end) with
  | Err e => r = Err e
  | Ok None => r = Ok None
  | Ok (Some (m, n, ri, ci, vals)) =>
      exists X, cscOfArrays_ends dflt stdsort ri ci vals (length vals) m n X /\ r = (Y <- X ;; Ok (Some Y))
  end.
End Binary.
