(** Linear probing as written in mask_hash.h and hash_mult_hw.h.

    Simplifications.  The keys are kept apart from the values stored beside them (mask_hash.h keeps them in
    one vector of tuples); the empty mark -1 is [None].  [w] is the width of the type the product
    key * 107 is computed in; the product wraps around (for a signed type the C++ standard gives it no
    meaning). *)
From Verif Require Import Base.
From Verif Require Export HashModel.

Section Lp.
Context (w : N).

(** [while (v_[hv] != ne_ && v_[hv] != key) hv = (hv + 1) & (size_ - 1)]: mask_hash.h 71-72, 93-94, 175-176, 196-197;
    hash_mult_hw.h 58-70, 138-151.  A run that has looked at every slot in vain would go on for ever. *)
Fixpoint lpProbe (fuel : nat) (keys : list (option nat)) (size key hv : nat) : res nat :=
  match fuel with
  | O => Err OutOfFuel
  | S fuel' =>
    x <- get keys hv ;;
    match x with
    | None => Ok hv
    | Some k => if k =? key then Ok hv else lpProbe fuel' keys size key (hnext size hv)
    end
  end.

(** With the start slot [(key * scale_) & (size_ - 1)]: mask_hash.h 69, 91, 173, 194; hash_mult_hw.h 57, 137 *)
Definition lpSlot (keys : list (option nat)) (size key : nat) : res nat :=
  lpProbe size keys size key (hslot w size key).

(** insert, the part that concerns the keys; the result says where the key is and whether it is new:
    mask_hash.h 65-83, 169-186; hash_mult_hw.h 58-70, 138-151 *)
Definition lpInsert (keys : list (option nat)) (size key : nat) : res (list (option nat) * nat * bool) :=
  p <- lpSlot keys size key ;;
  x <- get keys p ;;
  match x with
  | None => keys' <- set_ keys p (Some key) ;; Ok (keys', p, true)
  | Some _ => Ok (keys, p, false)
  end.

(** find: mask_hash.h 87-99, 190-202 *)
Definition lpFind (keys : list (option nat)) (size key : nat) : res (option nat) :=
  p <- lpSlot keys size key ;;
  x <- get keys p ;;
  Ok (match x with None => None | Some _ => Some p end).
End Lp.
