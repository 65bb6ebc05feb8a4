(** The program sample/GenMatrices.cpp: it loads or generates two matrices (sample/sample_common.hpp 95-198) and writes their
    positions to two Matrix Market files.

    Simplifications.  Numbers are printed as decimal numerals and indices are unbounded naturals.  Of the standard output only the
    last line is kept.  A file that cannot be opened stays as it is; writing to an opened file does not fail.  The matrices made by
    new (sample_common.hpp 151, 160) and the release of the arrays are left out. *)
From Verif Require Export IoSpec IoModel MatModel.
From Verif Require Export Base Spec.
Local Open Scope list_scope.

(** getline(ss, cur, d) until it fails, every piece pushed to the vector: sample_common.hpp 186-188, 192-194.
    Behind a delimiter at the end there is no further piece. *)
Fixpoint pieces (d : ascii) (l : text) : list text :=
  match l with
  | [] => []
  | c :: l =>
      if Ascii.eqb c d then [] :: pieces d l
      else match pieces d l with p :: ps => (c :: p) :: ps | [] => [[c]] end
  end.
(** v[v.size() - k], unsigned: sample_common.hpp 190, 195 *)
Definition fromEnd {A} (v : list A) (k : nat) : res A := if k <=? length v then get v (length v - k) else Err OutOfBounds.
(** The name without directories and extension: sample_common.hpp 183-195 *)
Definition stem (name : text) : res text :=
  p <- fromEnd (pieces "." name) 2 ;;
  fromEnd (pieces "/" p) 1.

(** Character strings are equal: sample_common.hpp 107, 114, 126, 128 *)
Definition sameText (a b : text) : bool := bool_decide (a = b).
(** argv[k]; behind the last argument there is a null pointer, which nothing here may read as a string:
    GenMatrices.cpp 49, 58; sample_common.hpp 107-128 *)
Definition arg (argv : list text) (k : nat) : res text := get argv k.

Section Gen.
Context {V : Type} (dflt : V) (ofInt : Z -> V) (stdsort : list (nat * V) -> list (nat * V)) (imax : Z).
(** The two matrices of sample_common.hpp 135-166: with the parameters of "rmat" or of "er", a scale and an edge factor
    (RmatModel.createInputs). *)
Context (generate : bool -> Z -> Z -> res (csc V * csc V)).
(** How the call of ReadBinary ends; [None]: it returns -1 and leaves the matrix empty (IoModel.readBinary). *)
Context (readBin : option text -> res (option (csc V)) -> Prop).
(** The files before the run, and the names that can be opened for writing. *)
Context (files : text -> option text) (canOpen : text -> bool).

(** The matrix ReadBinary leaves when it fails: sample_common.hpp 104-105, 177-178; CSC() in CSC.h 32 *)
Definition orEmpty (X : option (csc V)) : csc V := default (mkCsc 0 0 0 [] [] []) X.
(** SetInputMatricesAsCSC: sample_common.hpp 95-198.  [r]: how it ends. *)
Definition setInputs (argv : list text) (r : res (csc V * csc V)) : Prop :=
  match (a1 <- arg argv 1 ;; a2 <- arg argv 2 ;; a3 <- arg argv 3 ;; Ok (a1, a2, a3)) with
  | Err e => r = Err e
  | Ok (a1, a2, a3) =>
      if sameText a1 (txt "gen") then
        r = (a4 <- arg argv 4 ;; scale <- atoi a3 ;; edgefactor <- atoi a4 ;; generate (sameText a2 (txt "rmat")) scale edgefactor)
      else if sameText a1 (txt "binary") then
        exists rA rB, readBin (files a2) rA /\ readBin (files a3) rB /\ r = (A <- rA ;; B <- rB ;; Ok (orEmpty A, orEmpty B))
      else
        exists rA rB, readASCII ofInt dflt stdsort imax (files a2) rA /\ readASCII ofInt dflt stdsort imax (files a3) rB /\
          r = (A <- rA ;; B <- rB ;; _ <- stem a2 ;; Ok (A, B))
  end.

(** The banner and the line of sizes: GenMatrices.cpp 50-51, 59-60 *)
Definition head2 (m n nz : nat) : text :=
  txt "%%MatrixMarket matrix coordinate pattern general" ++ [nlc] ++
  showNat m ++ txt " " ++ showNat n ++ txt " " ++ showNat nz ++ [nlc].
(** The left file: GenMatrices.cpp 50-54; the outer loop runs up to the number of rows *)
Definition writeLeft (A : csc V) : res text :=
  for_ 0 (c_rows A) (fun i s =>
    lo <- get (colptr A) i ;;
    hi <- get (colptr A) (i + 1) ;;
    for_ lo hi (fun j s =>
      r <- get (rowids A) j ;;
      Ok (s ++ showNat (r + 1) ++ txt " " ++ showNat (i + 1) ++ [nlc])) s)
    (head2 (c_rows A) (c_cols A) (c_nnz A)).
(** The right file: GenMatrices.cpp 59-63 *)
Definition writeRight (B : csr V) : res text :=
  for_ 0 (rows B) (fun i s =>
    lo <- get (rowptr B) i ;;
    hi <- get (rowptr B) (i + 1) ;;
    for_ lo hi (fun j s =>
      c <- get (colids B) j ;;
      Ok (s ++ showNat (i + 1) ++ txt " " ++ showNat (c + 1) ++ [nlc])) s)
    (head2 (rows B) (cols B) (nnz B)).
(** The name of a file: GenMatrices.cpp 49, 58 *)
Definition outName (side : string) (a2 a3 a4 : text) : text :=
  txt "assets/" ++ txt side ++ txt "_" ++ a2 ++ a3 ++ txt "_" ++ a4 ++ txt ".mtx".
(** fd.open(name), the writing of [t], fd.close(): GenMatrices.cpp 49-55, 58-64 *)
Definition written (fs : text -> option text) (name t : text) : text -> option text :=
  if canOpen name then fun x => if sameText x name then Some t else fs x else fs.
(** The last line: GenMatrices.cpp 66 *)
Definition report (a b r : nat) : text :=
  txt "Left matrix has " ++ showNat a ++ txt " nonzeros, right matrix has " ++ showNat b ++ txt " nonzeros, nrows " ++ showNat r ++ [nlc].

(** main: GenMatrices.cpp 28-72.  [r]: how it ends: the value returned, the files afterwards and the last line. *)
Definition genMain (argv : list text) (r : res (Z * (text -> option text) * text)) : Prop :=
  if length argv <? 4 then r = Ok ((-1)%Z, files, [])
  else exists rI, setInputs argv rI /\
    r = ('(A, B) <- rI ;;
         Br <- csrOfCsc dflt B ;;
         a2 <- arg argv 2 ;; a3 <- arg argv 3 ;; a4 <- arg argv 4 ;;
         left <- writeLeft A ;;
         right <- writeRight Br ;;
         Ok (0%Z, written (written files (outName "left" a2 a3 a4) left) (outName "right" a2 a3 a4) right,
             report (c_nnz A) (nnz Br) (c_rows A))).
End Gen.
