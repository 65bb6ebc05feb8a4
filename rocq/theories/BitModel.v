(** BitMap: BitMap.h 39-158.

    Simplifications.  A word is a natural number below 2^64; a word that was never written is [None].  A position is an
    unbounded natural (the code has 64 bits); the value returned by get_next_bit is kept in 64 bits.  new never fails; release of
    the array, data() and print_ones are left out. *)
From Verif Require Import Base.

(** The words from start to end: BitMap.h 155-157 *)
Notation bitmap := (list (option N)).

(** BitMap(size): BitMap.h 44-49 *)
Definition bmNew (size : nat) : bitmap := replicate ((size + 63) / 64) None.

(** std::copy(rhs.start, rhs.end, start): BitMap.h 60, 71, 144.  Copying a word that was never written is an error. *)
Definition bmCopy (rhs start : bitmap) : res bitmap :=
  for_ 0 (length rhs) (fun i d => x <- getI rhs i ;; set_ d i (Some x)) start.
(** BitMap(const BitMap&): BitMap.h 54-61 *)
Definition bmClone (rhs : bitmap) : res bitmap := bmCopy rhs (replicate (length rhs) None).

(** reset: BitMap.h 77-81 *)
Definition bmReset (start : bitmap) : res bitmap := for_ 0 (length start) (fun i d => set_ d i (Some 0%N)) start.

(** set_bit: BitMap.h 83-86 *)
Definition bmSet (start : bitmap) (pos : nat) : res bitmap :=
  x <- getI start (pos / 64) ;;
  set_ start (pos / 64) (Some (N.lor x (N.shiftl 1 (N.of_nat (pos mod 64))))).

(** get_bit: BitMap.h 99-106 *)
Definition bmGet (start : bitmap) (pos : nat) : res bool :=
  x <- getI start (pos / 64) ;;
  Ok (negb (N.land x (N.shiftl 1 (N.of_nat (pos mod 64))) =? 0)%N).

(** The loop that looks for a word: BitMap.h 121-127; [None] stands for the result -1; [fuel] bounds the number of rounds *)
Fixpoint bmWord (fuel : nat) (start : bitmap) (it : nat) (next : N) : res (option (N * N)) :=
  match fuel with
  | O => Err OutOfFuel
  | S fuel =>
    if length start <=? it + 1 then Ok None
    else
      temp <- getI start (it + 1) ;;
      let next := ((next + 64) mod 2 ^ 64)%N in
      if (temp =? 0)%N then bmWord fuel start (it + 1) next else Ok (Some (temp, next))
  end.

(** The loop that looks for the bit: BitMap.h 131-134 *)
Fixpoint bmBit (fuel : nat) (temp next : N) : res N :=
  match fuel with
  | O => Err OutOfFuel
  | S fuel => if N.odd temp then Ok next else bmBit fuel (N.shiftr temp 1) ((next + 1) mod 2 ^ 64)%N
  end.

(** get_next_bit: BitMap.h 108-136 *)
Definition bmNext (start : bitmap) (pos : nat) : res (option N) :=
  let next := N.of_nat pos in
  let bit_offset := pos mod 64 in
  temp <- getI start (pos / 64) ;;
  let temp := if negb (bit_offset =? 63) then N.shiftr temp (N.of_nat (bit_offset + 1)) else 0%N in
  r <- (if (temp =? 0)%N then bmWord (length start + 1) start (pos / 64) (N.land next 0xffffffc0)
        else Ok (Some (temp, (next + 1) mod 2 ^ 64)%N)) ;;
  match r with
  | None => Ok None
  | Some (temp, next) => q <- bmBit 64 temp next ;; Ok (Some q)
  end.
