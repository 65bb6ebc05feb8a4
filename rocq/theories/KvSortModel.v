(** utility.h: recursive merge sort of keys with values. *)
From Verif Require Export Base.

Section KvSort.
Context {V : Type} (dflt : V).
(** The unsigned key type has [W] values: sums are taken modulo [W], [0 - 1] is [W - 1]. *)
Context (W : nat).
(** [x - 1] in that type. *)
Definition decW (x : nat) : nat := if x =? 0 then W - 1 else x - 1.

(** nnz_num, nnz_sorting, temp_num, temp_sorting: utility.h 217-218 *)
Definition kvst : Type := list nat * list V * list nat * list V.

(** First copy loop: utility.h 230-233.  (Here and below a loop [i <= b] is run up to [b + 1]: [b] is less than
    [W - 1] whenever the loop is reached, see utility.h 221.) *)
Definition kvCopyLeft (left mid : nat) (s : kvst) : res kvst :=
  for_ left (mid + 1) (fun i '(nn, ns, tn, ts) =>
    x <- get nn i ;; tn <- set_ tn i x ;;
    y <- get ns i ;; ts <- set_ ts i y ;;
    Ok (nn, ns, tn, ts)) s.

(** Second copy loop, right half in reverse: utility.h 235-238 *)
Definition kvCopyRight (mid right : nat) (s : kvst) : res (kvst * nat) :=
  for_ (mid + 1) (right + 1) (fun i '((nn, ns, tn, ts), j) =>
    y <- get ns j ;; ts <- set_ ts i y ;;
    x <- get nn j ;; tn <- set_ tn i x ;;
    Ok ((nn, ns, tn, ts), decW j)) (s, right).

(** Merge loop: utility.h 240-251 *)
Definition kvMerge (left mid right : nat) (s : kvst) : res (kvst * nat * nat) :=
  for_ left (right + 1) (fun k '((nn, ns, tn, ts), i, j) =>
    a <- get tn i ;;
    b <- get tn j ;;
    if (a <=? b) && (i <=? mid) then
      nn <- set_ nn k a ;;
      y <- get ts i ;; ns <- set_ ns k y ;;
      Ok ((nn, ns, tn, ts), i + 1, j)
    else
      nn <- set_ nn k b ;;
      y <- get ts j ;; ns <- set_ ns k y ;;
      Ok ((nn, ns, tn, ts), i, decW j)) (s, left, right).

(** [mergesort]: utility.h 216-252.  [fuel] bounds the recursion depth. *)
Fixpoint kvMergesort (fuel : nat) (s : kvst) (left right : nat) : res kvst :=
  match fuel with
  | O => Err OutOfFuel
  | S fuel' =>
    if right <=? left then Ok s
    else
      let mid := ((left + right) mod W) / 2 in
      s <- kvMergesort fuel' s left mid ;;
      s <- kvMergesort fuel' s (mid + 1) right ;;
      s <- kvCopyLeft left mid s ;;
      '(s, _) <- kvCopyRight mid right s ;;
      '(s, _, _) <- kvMerge left mid right s ;;
      Ok s
  end.

(** [cpu_sorting_key_value]: utility.h 255-267 *)
Definition kvSort (fuel : nat) (key : list nat) (value : list V) (N : nat) : res (list nat * list V) :=
  '(k, v, _, _) <- kvMergesort fuel (key, value, replicate N 0, replicate N dflt) 0 (decW N) ;;
  Ok (k, v).
End KvSort.
