(** Reading a matrix from a Matrix Market file straight into compressed rows: the constructor CSR(const string filename).

    Simplifications.  The three coordinate arrays are written and read at the same places and are kept as one array of triples.  A number with a minus
    sign in the size line, for which the allocation fails, is an error, and so is a negative column of an entry (the code stores it).  The constructor
    allocates sizeof(T) times as many elements as it needs; all accesses are checked against these lengths, and the result keeps the elements which
    rows and nnz speak of.  malloc never fails.  Release of the local arrays is left out.  [exit(1)] is [AssertFail]. *)
From Verif Require Export IoModel MatModel.
From Verif Require Import Base Spec.
Local Open Scope list_scope.

(** fgets(line, LINE_LENGTH_MAX, fp): at most 255 characters, up to and with the first newline; [None]: NULL, and [line] is left as it was.
    CSR.h 549, 560, 575 *)
Fixpoint fgetsLoop (k : nat) (t : list ascii) : list ascii * list ascii :=
  match k, t with
  | S k, c :: t => if Ascii.eqb c "010" then ([c], t) else let '(l, r) := fgetsLoop k t in (c :: l, r)
  | _, _ => ([], t)
  end.
(** The call; end of file gives NULL: CSR.h 549, 560, 575 *)
Definition fgets (t : list ascii) : option (list ascii * list ascii) :=
  match t with [] => None | _ => Some (fgetsLoop 255 t) end.

(** The loop over the comments: CSR.h 559-564.  Result: the string in [line], isUnsy, the rest of the file.  When the file ends, [line] keeps what it
    held, and a comment there keeps the loop going for ever. *)
Fixpoint headLoop (fuel : nat) (line : option (list ascii)) (isUnsy : bool) (t : list ascii) : res (list ascii * bool * list ascii) :=
  match fuel with
  | 0 => Err OutOfFuel
  | S fuel =>
      let '(line, t) := match fgets t with Some (l, t) => (Some (cstr l), t) | None => (line, t) end in
      l <- used line ;;
      let isUnsy := isUnsy || strstr (list_ascii_of_string "general") l in
      match l with
      | c :: _ => if Ascii.eqb c "%" then headLoop fuel (Some l) isUnsy t else Ok (l, isUnsy, t)
      | [] => Ok (l, isUnsy, t)
      end
  end.

(** sscanf(line, "%d %d %d", ...): the numbers stored, at most [k].  Undefined when a number does not fit an int.  CSR.h 567 *)
Fixpoint scanInts (k : nat) (l : list ascii) : res (list Z) :=
  match k with
  | 0 => Ok []
  | S k =>
      let l := skipSpace l in
      let '(neg, ds) := match l with
                        | c :: l' => if Ascii.eqb c "-" then (true, l') else if Ascii.eqb c "+" then (false, l') else (false, l)
                        | [] => (false, [])
                        end in
      match ds with
      | d :: _ =>
          match digit d with
          | Some _ =>
              let '(z, r) := digits 0 ds in
              let z := if (neg : bool) then Z.opp z else z in
              if ((-2147483648 <=? z) && (z <=? 2147483647))%Z then zs <- scanInts k r ;; Ok (z :: zs) else Err OutOfBounds
          | None => Ok []
          end
      | [] => Ok []
      end
  end.

(** sizeof(IT) is [szI].  "%d" stores four bytes through each pointer: of a longer variable the rest stays uninitialised, a shorter one
    is overrun.  CSR.h 567 *)
Definition storedInt (szI : nat) (z : option Z) : res Z :=
  z <- used z ;;
  if szI =? 4 then Ok z else Err (if 4 <? szI then Uninit else OutOfBounds).
(** A size, used in an allocation.  CSR.h 571-573, 598, 613-615 *)
Definition asSize (z : Z) : res nat := if (0 <=? z)%Z then Ok (Z.to_nat z) else Err OutOfBounds.

Section File.
(** atof, the values 0 and 1.0 of type NT, and sizeof(IT), sizeof(NT). *)
Context {V : Type} (atof : list ascii -> V) (zero one : V) (szI szV : nat).

(** One entry line: CSR.h 576-592.  A line without a space leaves a null pointer, which is then advanced and read. *)
Definition parseEntry (line : list ascii) : res (Z * Z * V) :=
  r <- atoi line ;;
  match strchr line with
  | Some (_ :: ch) =>
      c <- atoi ch ;;
      match strchr ch with
      | Some (_ :: ch) => Ok ((r - 1)%Z, (c - 1)%Z, atof ch)
      | _ => Ok ((r - 1)%Z, (c - 1)%Z, one)
      end
  | _ => Err OutOfBounds
  end.

(** The loop over the entry lines: CSR.h 575-594.  It runs to the end of the file, whatever the size line says.  Result: num and the arrays. *)
Fixpoint cooLoop (fuel : nat) (t : list ascii) (num : nat) (coo : list (option (Z * Z * V))) : res (nat * list (option (Z * Z * V))) :=
  match fuel with
  | 0 => Err OutOfFuel
  | S fuel =>
      match fgets t with
      | Some (l, t) =>
          x <- parseEntry (cstr l) ;;
          coo <- set_ coo num (Some x) ;;
          cooLoop fuel t (num + 1) coo
      | None => Ok (num, coo)
      end
  end.

(** The count of the entries of each row: CSR.h 602-608; tmp_nz is of type IT, here a 32-bit int. *)
Definition countEntry (isUnsy : bool) (x : Z * Z * V) (s : list nat * nat) : res (list nat * nat) :=
  let '(work, nz) := s in
  let '(r, c, _) := x in
  i <- asIndex r ;;
  work <- bump work i ;;
  if negb (Z.eqb c r) && negb isUnsy then
    j <- asIndex c ;;
    work <- bump work j ;;
    if (Z.of_nat nz + 1 <=? 2147483647)%Z then Ok (work, nz + 1) else Err OutOfBounds
  else Ok (work, nz).

(** The row pointers: CSR.h 617-622.  [rp]: the new array. *)
Definition rowPointers (work : list nat) (n : nat) (rp : list nat) : res (list nat) :=
  '(rp, offset) <- for_ 0 n (fun i '(rp, offset) =>
    rp <- set_ rp i offset ;;
    x <- get work i ;;
    Ok (rp, offset + x)) (rp, 0) ;;
  set_ rp n offset.

(** [colids[rowptr[r] + each_row_index[r]] = c; values[rowptr[r] + each_row_index[r]++] = v]: CSR.h 630-631, 634-635 *)
Definition placeAt (rp : list nat) (r c : nat) (v : V) (s : list nat * list nat * list V) : res (list nat * list nat * list V) :=
  let '(each, ids, vals) := s in
  b <- get rp r ;;
  k <- get each r ;;
  ids <- set_ ids (b + k) c ;;
  vals <- set_ vals (b + k) v ;;
  each <- set_ each r (k + 1) ;;
  Ok (each, ids, vals).
(** One entry: CSR.h 629-637 *)
Definition fillEntry (isUnsy : bool) (rp : list nat) (x : Z * Z * V) (s : list nat * list nat * list V) : res (list nat * list nat * list V) :=
  let '(r, c, v) := x in
  i <- asIndex r ;;
  j <- asIndex c ;;
  s <- placeAt rp i j v s ;;
  if negb (Z.eqb c r) && negb isUnsy then placeAt rp j i v s else Ok s.

(** CSR(const string filename): CSR.h 538-645.  [fuel] bounds the loop over the comments.  [rows + 1] is computed in type IT. *)
Definition csrOfFile (fuel : nat) (f : option (list ascii)) : res (csr V) :=
  match f with
  | None => Err AssertFail
  | Some t =>
      '(line, isUnsy, t) <- headLoop fuel None false t ;;
      zs <- scanInts 3 line ;;
      nz <- storedInt szI (zs !! 2) ;;
      nz <- asSize nz ;;
      '(num, coo) <- cooLoop (length t + 1) t 0 (replicate nz None) ;;
      m <- storedInt szI (zs !! 0) ;;
      m <- asSize m ;;
      '(work, nz) <- for_ 0 num (fun i s => x <- getI coo i ;; countEntry isUnsy x s) (replicate m 0, nz) ;;
      _ <- (if (Z.of_nat m + 1 <=? 2147483647)%Z then Ok tt else Err OutOfBounds) ;;
      rp <- rowPointers work m (replicate (szI * (m + 1)) 0) ;;
      '(_, ids, vals) <- for_ 0 num (fun i s => x <- getI coo i ;; fillEntry isUnsy rp x s)
        (replicate m 0, replicate (szI * nz) 0, replicate (szV * nz) zero) ;;
      n <- storedInt szI (zs !! 1) ;;
      n <- asSize n ;;
      Ok (mkCsr m n nz (take (m + 1) rp) (take nz ids) (take nz vals))
  end.
End File.
