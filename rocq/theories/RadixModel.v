(** Model of radix_sort/radix_sort.hpp: least significant digit first, counting sort per digit.
    An array is a list of cells; a cell that was never written, or whose contents were moved away, is [None].
    The counters wrap modulo [2 ^ w], w being the width of the counter type. *)
From Verif Require Export Base.

(** Key types: unsigned and signed integers of 1, 2, 4 or 8 bytes, bool, and pairs; tuples and arrays are pairs ending
    in the empty tuple (radix_sort.hpp 401-686); [RF] is float and double, given by their bits.  Not modelled: char,
    wchar_t, char16_t, char32_t. *)
Inductive rty := RU (p : nat) | RS (p : nat) | RF (p : nat) | RBool | RUnit | RPair (k v : rty).
(** The values of a key type: radix_sort.hpp 401-686 *)
Fixpoint rden (t : rty) : Type :=
  match t with RU _ | RF _ => N | RS _ => Z | RBool => bool | RUnit => unit | RPair k v => rden k * rden v end.

(** [to_unsigned] of a signed number: radix_sort.hpp 57-60, 77-80, 85-88, 93-96, 101-104 *)
Definition to_unsigned (p : nat) (z : Z) : N :=
  Z.to_N ((z mod 2 ^ (8 * Z.of_nat p) + 2 ^ (8 * Z.of_nat p - 1)) mod 2 ^ (8 * Z.of_nat p)).
(** [to_unsigned] of a float or double with bits [u]: radix_sort.hpp 109-118, 119-128 *)
Definition to_unsigned_f (p : nat) (u : N) : N :=
  let top := (2 ^ (8 * N.of_nat p - 1))%N in
  let sign_bit := if (N.shiftr u (8 * N.of_nat p - 1) =? 0)%N then 0%N else N.ones (8 * N.of_nat p) in
  N.lxor u (N.lor sign_bit top).

Section Radix.
Context {T : Type}.

(** [(key >> 8 * p) & 0xff]: radix_sort.hpp 174-175, 190, 195, 231-234, 257, 262, 267, 272 and likewise 311-318, 357-392 *)
Definition digit (p : nat) (k : N) : nat := N.to_nat (N.shiftr k (8 * N.of_nat p) mod 256).

(** The width of the counters: radix_sort.hpp 39-47, 154-162, 210-218, 286-294 *)
Definition counterBits (n : nat) : N :=
  if (N.of_nat n <=? 2 ^ 8)%N then 8 else if (N.of_nat n <=? 2 ^ 16)%N then 16
  else if (N.of_nat n <=? 2 ^ 32)%N then 32 else 64.

(** [counts[v]++]: radix_sort.hpp 21, 33, 174, 191 *)
Definition bumpW (w : N) (counts : list N) (v : nat) : res (N * list N) :=
  c <- get counts v ;;
  counts <- set_ counts v ((c + 1) mod 2 ^ w)%N ;;
  Ok (c, counts).

(** The number of elements with each digit: radix_sort.hpp 18-22, 168-176, 223-235, 299-319.  Simplification: the
    code counts all digits of an element before the next element, here one digit after the other. *)
Definition histogram (w : N) (d : T -> nat) (src : list (option T)) (n : nat) : res (list N) :=
  for_ 0 n (fun i counts => x <- getI src i ;; '(_, counts) <- bumpW w counts (d x) ;; Ok counts) (replicate 256 0%N).

(** First positions: radix_sort.hpp 23-29, 177-187, 236-254, 320-354 *)
Definition firstPos (w : N) (counts : list N) : res (list N) :=
  '(counts, _) <- for_ 0 256 (fun i '(counts, total) =>
    old <- get counts i ;;
    counts <- set_ counts i total ;;
    Ok (counts, ((total + old) mod 2 ^ w)%N)) (counts, 0%N) ;;
  Ok counts.

(** One pass over the elements: radix_sort.hpp 30-34, 188-192, 193-197, 255-274, 355-394 *)
Definition scatter (w : N) (d : T -> nat) (src dst : list (option T)) (counts : list N) (n : nat) :
    res (list (option T) * list (option T)) :=
  '(src, dst, _) <- for_ 0 n (fun i '(src, dst, counts) =>
    x <- getI src i ;;
    '(c, counts) <- bumpW w counts (d x) ;;
    dst <- set_ dst (N.to_nat c) (Some x) ;;
    src <- set_ src i None ;;
    Ok (src, dst, counts)) (src, dst, counts) ;;
  Ok (src, dst).

(** The counters of the digits [p], [p + 1], ...: radix_sort.hpp 168-187, 223-254, 299-354 *)
Fixpoint allCounts (w : N) (key : T -> N) (src : list (option T)) (n p m : nat) : res (list (list N)) :=
  match m with
  | O => Ok []
  | S m' =>
    h <- histogram w (fun x => digit p (key x)) src n ;;
    c <- firstPos w h ;;
    cs <- allCounts w key src n (S p) m' ;;
    Ok (c :: cs)
  end.

(** The passes, forth and back between the two arrays; the flag says that the result is in the second one:
    radix_sort.hpp 139-143, 188-198, 255-275, 355-395 *)
Fixpoint passes (w : N) (key : T -> N) (cs : list (list N)) (p n : nat) (a b : list (option T)) :
    res (list (option T) * list (option T) * bool) :=
  match cs with
  | [] => Ok (a, b, false)
  | c :: cs' =>
    '(a, b) <- scatter w (fun x => digit p (key x)) a b c n ;;
    '(b, a, which) <- passes w key cs' (S p) n b a ;;
    Ok (a, b, negb which)
  end.

(** [SizedRadixSorter<p>::sort], p = 1, 2, 4, 8: radix_sort.hpp 133-147, 148-202, 203-279, 280-399 *)
Definition sizedSort (p : nat) (key : T -> N) (n : nat) (a b : list (option T)) :
    res (list (option T) * list (option T) * bool) :=
  let w := counterBits n in
  cs <- allCounts w key a n 0 p ;;
  passes w key cs 0 n a b.

(** [RadixSorter<bool>::sort]: radix_sort.hpp 403-428 *)
Definition boolSort (key : T -> bool) (n : nat) (a b : list (option T)) :
    res (list (option T) * list (option T) * bool) :=
  falses <- for_ 0 n (fun i s => x <- getI a i ;; Ok (if key x then s else s + 1)) 0 ;;
  '(a, b, _, _) <- for_ 0 n (fun i '(a, b, tp, fc) =>
    x <- getI a i ;;
    b <- set_ b (if key x then tp else fc) (Some x) ;;
    a <- set_ a i None ;;
    Ok (if key x then (a, b, tp + 1, fc) else (a, b, tp, fc + 1))) (a, b, falses, 0) ;;
  Ok (a, b, true).
End Radix.

(** [RadixSorter<key>::sort]: radix_sort.hpp 429-476 (numbers), 493-546 (pairs), 547-641 (tuples), 642-665 (arrays),
    called by [radix_sort], radix_sort.hpp 704-708;
    [n] is [end - begin].  The result says whether the elements are now in the buffer. *)
Fixpoint rsort (t : rty) {T : Type} : (T -> rden t) -> nat -> list (option T) -> list (option T) ->
    res (list (option T) * list (option T) * bool) :=
  match t with
  | RU p => fun key => sizedSort p key
  | RS p => fun key => sizedSort p (fun x => to_unsigned p (key x))
  | RF p => fun key => sizedSort p (fun x => to_unsigned_f p (key x))
  | RBool => fun key => boolSort key
  | RUnit => fun _ _ a b => Ok (a, b, false)
  | RPair k v => fun key n a b =>
      '(a, b, which) <- rsort v (fun x => (key x).2) n a b ;;
      if which then '(b, a, which) <- rsort k (fun x => (key x).1) n b a ;; Ok (a, b, negb which)
      else rsort k (fun x => (key x).1) n a b
  end.
