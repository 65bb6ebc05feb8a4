(** What the benchmarks print beside the times: the checksum, the names and the number of operations.
    benchmarks/benchmarks-util.h 7-100; MaskedAllSpGEMM.cpp 32-75; multiply.h 116-150; heap_mult.h 10-45
    (the same text is in inner_mult.h 11-46).

    Simplifications.  Memory is a list of bytes (numbers below 256), lowest byte first.  Strings are lists of
    characters.  Counts of products (long long) are unbounded; the product of two counts of type IT is taken modulo
    2^w (for a signed IT an overflow is undefined). *)
From Coq Require Import NArith Ascii String.
From Verif Require Export WorkModel HeapCscModel IndexModel.
From Verif Require Import Base Spec.

(** [*data16] at index i: benchmarks-util.h 9, 13 *)
Definition word16 (data : list N) (i : nat) : res N :=
  lo <- get data (2 * i) ;;
  hi <- get data (2 * i + 1) ;;
  Ok (lo + 256 * hi)%N.

(** [checksum += x] and the fold of the carry: benchmarks-util.h 13-18, 23-27; 0xFFFF0000 = 4294901760 *)
Definition addWord (checksum x : N) : N :=
  let c := ((checksum + x) mod 2 ^ 32)%N in
  if (N.land c 4294901760 =? 0)%N then c else ((N.land c 65535 + 1) mod 2 ^ 32)%N.

(** [calculateChecksum]: benchmarks-util.h 7-31; the same text in MaskedAllSpGEMM.cpp 32-56.  [(uint16_t) ~x]
    of a uint32_t keeps the lower 16 of the 32 inverted bits. *)
Definition calculateChecksum (data : list N) (len : nat) : res N :=
  let length16 := len / 2 in
  c <- for_ 0 length16 (fun i c => x <- word16 data i ;; Ok (addWord c x)) 0%N ;;
  c <- (if Nat.odd len then x <- get data (2 * length16) ;; Ok (addWord c x) else Ok c) ;;
  Ok (N.land (N.lnot (N.land c 65535) 32) 65535).

(** [checksum(A)]: benchmarks-util.h 33-47, without the conversion to text; [ptr], [ids], [n] are rowptr, colids,
    rows of a CSR and colptr, rowids, cols of a CSC matrix.  [encI], [encV] give the bytes of an index and of a
    value, [szI], [szV] their numbers.  Order of the result as printed: pointers, values, ids. *)
Definition checksum {V} (encI : nat -> list N) (encV : V -> list N) (szI szV n nz : nat) (ptr ids : list nat) (vals : list V)
    : res (N * N * N) :=
  v <- calculateChecksum (mjoin (encV <$> vals)) (nz * szV) ;;
  i <- calculateChecksum (mjoin (encI <$> ids)) (nz * szI) ;;
  p <- calculateChecksum (mjoin (encI <$> ptr)) (n * szI) ;;
  Ok (p, v, i).

(** Strings.  [str] is the list of the characters of a literal.  benchmarks-util.h 73-95. *)
Definition str (s : string) : list ascii := list_ascii_of_string s.

(** [startsWith]: benchmarks-util.h 49-53 *)
Definition startsWith (s prefix : list ascii) : bool :=
  if length s <? length prefix then false else bool_decide (take (length prefix) s = prefix).

(** [removePrefix]: benchmarks-util.h 55-62 *)
Definition removePrefix (s prefix : list ascii) : list ascii :=
  if length s <? length prefix then s
  else if bool_decide (take (length prefix) s = prefix) then drop (length prefix) s else s.

(** [removeSuffix]: benchmarks-util.h 64-71 *)
Definition removeSuffix (s suffix : list ascii) : list ascii :=
  if length s <? length suffix then s
  else if bool_decide (take (length suffix) (drop (length s - length suffix) s) = suffix)
  then take (length s - length suffix) s else s.

(** [name.front()], [name.back()]: undefined for an empty string.  benchmarks-util.h 75 *)
Definition front (s : list ascii) : res ascii := get s 0.
(** name.back(): benchmarks-util.h 75 *)
Definition back (s : list ascii) : res ascii := get s (length s - 1).

(** [processAlgorithmName]: benchmarks-util.h 73-95 *)
Definition processAlgorithmName (name : list ascii) : res (list ascii) :=
  f <- front name ;;
  name <- (if bool_decide (f = "("%char) then
             b <- back name ;;
             Ok (if bool_decide (b = ")"%char) then take (length name - 2) (drop 1 name) else name)
           else Ok name) ;;
  let numPhases := if startsWith name (str "MaskedSpGEMM1p<") then 1
                   else if startsWith name (str "MaskedSpGEMM2p<") then 2 else 0 in
  let name := removePrefix name (str "MaskedSpGEMM1p<") in
  let name := removePrefix name (str "MaskedSpGEMM2p<") in
  let name := removeSuffix name (str ">") in
  let name := removeSuffix name (str "::Impl") in
  let name := if numPhases =? 1 then name ++ str "-1P" else if numPhases =? 2 then name ++ str "-2P" else name in
  Ok (filter (fun c => c <> " "%char) name).

(** [path.rfind('/')], searched from the end; None is npos.  benchmarks-util.h 98 *)
Fixpoint rfind (c : ascii) (s : list ascii) : option nat :=
  match s with
  | [] => None
  | x :: s' => match rfind c s' with
               | Some p => Some (S p)
               | None => if bool_decide (x = c) then Some 0 else None
               end
  end.

(** [getFileName]: benchmarks-util.h 97-100 *)
Definition getFileName (path : list ascii) : list ascii :=
  match rfind "/"%char path with Some pos => drop (pos + 1) path | None => path end.

(** The loop of the other getFileName: MaskedAllSpGEMM.cpp 73.  [len] is one more than the variable len; the condition
    reads path[len] before it tests len >= 0. *)
Fixpoint slashLoop (path : list ascii) (len : nat) : res nat :=
  match len with
  | 0 => Err OutOfBounds
  | S l => c <- get path l ;; if bool_decide (c = "/"%char) then Ok l else slashLoop path l
  end.

(** The getFileName of MaskedAllSpGEMM.cpp 71-75; [path] with its terminating zero.  Result: the characters before that
    zero. *)
Definition getFileNameC (s : list ascii) : res (list ascii) :=
  let path := s ++ ["000"%char] in
  pos <- slashLoop path (length s + 1) ;;
  Ok (take (length s - (pos + 1)) (drop (pos + 1) path)).

Section Flop.
Context {V : Type}.

(** [get_flop(CSR, CSR)]: multiply.h 116-133.  The body of the row loop is that of calculateFlops. *)
Definition getFlopCsr (A B : csr V) : res nat :=
  tflops <- for_ 0 (rows A) (fun i tflops => locmax <- flopsRow A B i ;; Ok (tflops + locmax)) 0 ;;
  Ok ((0 + tflops) * 2).

(** [get_flop(CSC, CSC)] with and without maxnnzc always returns [r]: heap_mult.h 11-45 *)
Definition getFlopCsc_always (A B : csc V) (r : nat) : Prop :=
  exists maxnnzc total, parfor_always (flopsCol A B) (c_cols B) (replicate (c_cols B) (Some 0)) maxnnzc total /\ r = total * 2.

(** One iteration of the loop of [get_flop(CSC, CSR)]: multiply.h 145-147.  [w]: bits of IT. *)
Definition flopsOuter (w : N) (A : csc V) (B : csr V) (i : nat) : res N :=
  y <- get (colptr A) (i + 1) ;;
  x <- get (colptr A) i ;;
  y' <- get (rowptr B) (i + 1) ;;
  x' <- get (rowptr B) i ;;
  Ok ((N.of_nat (y - x) * N.of_nat (y' - x')) mod 2 ^ w)%N.

(** [get_flop(CSC, CSR)] may return [r]: multiply.h 136-150.  [asg] gives each thread its iterations, the private sums are
    added in the order [ord]. *)
Definition getFlopOuter_returns (w : N) (A : csc V) (B : csr V) (r : res N) : Prop :=
  exists asg sums ord, schedule (c_cols A) asg /\
    Forall2 (fun its s => foldM (fun acc i => f <- flopsOuter w A B i ;; Ok (acc + f)%N) its 0%N = s) asg sums /\
    ord ≡ₚ sums /\ r = (s <- foldM (fun acc s => x <- s ;; Ok (acc + x)%N) ord 0%N ;; Ok (s * 2)%N).
End Flop.
