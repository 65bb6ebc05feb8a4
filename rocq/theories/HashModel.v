(** Model of the hash accumulators and their row kernels:
    spgemm-blocks/hash/HashAccumulator.h, spgemm-blocks/hash/MaskedHashAlgorithm.h. *)
From stdpp Require Import sorting.
From Verif Require Import Base Spec KernelBase.

(** HashAccumulator.h:41-49 the two doubling loops; [size <<= 1] wraps in the w-bit type T. *)
Fixpoint dbl (w : N) (fuel : nat) (cond : N -> bool) (size : N) : res N :=
  match fuel with
  | O => Err OutOfFuel
  | S fuel' => if cond size then dbl w fuel' cond ((size * 2) mod 2 ^ w)%N else Ok size
  end.

(** HashAccumulator.h:41-49 adjustSize.  [w] is the width of T (unsigned).  LOAD_FACTOR is
    std::ratio<2,8>, which the standard reduces to 1/4 (den, num of type intmax_t), so the second
    comparison is carried out in 64 bits.  [fuel] bounds each loop. *)
Definition adjustSizeF (w : N) (fuel : nat) (requested : N) : res N :=
  let r := ((requested + 1) mod 2 ^ w)%N in
  s <- dbl w fuel (fun s => s <? r)%N 16%N ;;
  dbl w fuel (fun s => (s * 1) mod 2 ^ 64 <? (r * 4) mod 2 ^ 64)%N s.
(** adjustSize, with fuel for every doubling of a [w]-bit number: HashAccumulator.h 41-49 *)
Definition adjustSize (w : N) (requested : nat) : res nat :=
  s <- adjustSizeF w (N.to_nat w + 1) (N.of_nat requested) ;; Ok (N.to_nat s).

(** HashAccumulator.h:164-169,256-259 an entry.  [hk = None] is key == EMPTY (all ones; a column
    index never has this value because it is smaller than cols, which fits in IT).  [None] in the
    other fields is a cell that holds no valid value. *)
Record hent (V : Type) := mkHent { hk : option nat; hv1 : option V; hv2 : option bool }.
Arguments mkHent {V} _ _ _.
Arguments hk {V} _.
Arguments hv1 {V} _.
Arguments hv2 {V} _.

(** HashAccumulator.h:33-39,177: _table (of length _capacity), _size (with _mask = _size - 1),
    _maxSize, _keys. *)
Record hash (V : Type) := mkHash {
  h_tab : list (hent V); h_size : nat; h_max : nat; h_keys : list nat }.
Arguments mkHash {V} _ _ _ _.
Arguments h_tab {V} _.
Arguments h_size {V} _.
Arguments h_max {V} _.
Arguments h_keys {V} _.

Section Hash.
Context {V : Type} (w : N) (mul add : V -> V -> V).

(** A store to _table: HashAccumulator.h 86-177 *)
Definition with_tab (acc : hash V) (t : list (hent V)) : hash V :=
  mkHash t (h_size acc) (h_max acc) (h_keys acc).

(** HashAccumulator.h:154-156 (key * SCALE) & _mask, SCALE = 107 (:27), product in the w-bit type *)
Definition hslot (size key : nat) : nat :=
  N.to_nat (N.land ((N.of_nat key * 107) mod 2 ^ w) (N.of_nat (size - 1))).
(** HashAccumulator.h:122,141,149 (hv + 1) & _mask *)
Definition hnext (size i : nat) : nat := Nat.land (i + 1) (size - 1).

(** HashAccumulator.h:86-92 resize *)
Definition resize (acc : hash V) (n : nat) : res (hash V) :=
  s <- adjustSize w n ;;
  _ <- assert_ (s <=? length (h_tab acc)) ;;
  Ok (mkHash (h_tab acc) s (if h_max acc <? s then s else h_max acc) (h_keys acc)).

(** HashAccumulator.h:98-100 resetStates *)
Definition hResetStates (acc : hash V) : res (hash V) :=
  t <- for_ 0 (h_size acc) (fun i t =>
    e <- get t i ;; set_ t i (mkHent None (hv1 e) (hv2 e))) (h_tab acc) ;;
  Ok (with_tab acc t).

(** HashAccumulator.h:139-143 findIdx: the probe loop from slot [hv] *)
Fixpoint probe (fuel : nat) (t : list (hent V)) (size key hv : nat) : res nat :=
  match fuel with
  | O => Err OutOfFuel
  | S fuel' =>
    e <- get t hv ;;
    match hk e with
    | None => Ok hv
    | Some k => if k =? key then Ok hv else probe fuel' t size key (hnext size hv)
    end
  end.
(** findIdx from the slot of the key: HashAccumulator.h 139-143 *)
Definition findIdx (acc : hash V) (key : nat) : res nat :=
  probe (h_size acc + 1) (h_tab acc) (h_size acc) key (hslot (h_size acc) key).

(** HashAccumulator.h:147-151 findIdxForce: does not stop at EMPTY *)
Fixpoint probeForce (fuel : nat) (t : list (hent V)) (size key hv : nat) : res nat :=
  match fuel with
  | O => Err OutOfFuel
  | S fuel' =>
    e <- get t hv ;;
    if bool_decide (hk e = Some key) then Ok hv else probeForce fuel' t size key (hnext size hv)
  end.
(** findIdxForce from the slot of the key: HashAccumulator.h 147-151 *)
Definition findIdxForce (acc : hash V) (key : nat) : res nat :=
  probeForce (h_size acc + 1) (h_tab acc) (h_size acc) key (hslot (h_size acc) key).

(** HashAccumulator.h:106-109 find; [None] is NOT_FOUND *)
Definition find (acc : hash V) (key : nat) : res (option nat) :=
  idx <- findIdx acc key ;;
  e <- get (h_tab acc) idx ;;
  Ok (match hk e with None => None | Some _ => Some idx end).

(** HashAccumulator.h:120-133 backward-shift loop of erase *)
Fixpoint shiftLoop (fuel : nat) (t : list (hent V)) (size eraseIdx shiftIdx : nat)
  : res (list (hent V) * nat) :=
  match fuel with
  | O => Err OutOfFuel
  | S fuel' =>
    let s := hnext size shiftIdx in
    e <- get t s ;;
    match hk e with
    | None => Ok (t, eraseIdx)
    | Some k =>
      let ins := hslot size k in
      if ((ins <=? eraseIdx) && (eraseIdx <=? s)) || ((eraseIdx <=? s) && (s <? ins))
         || ((s <? ins) && (ins <=? eraseIdx))
      then t' <- set_ t eraseIdx e ;; shiftLoop fuel' t' size s s
      else shiftLoop fuel' t size eraseIdx s
    end
  end.

(** HashAccumulator.h:115-137 erase *)
Definition hErase (acc : hash V) (key : nat) : res (hash V * bool) :=
  idx <- findIdx acc key ;;
  e <- get (h_tab acc) idx ;;
  match hk e with
  | None => Ok (acc, false)
  | Some _ =>
    '(t, ei) <- shiftLoop (h_size acc + 1) (h_tab acc) (h_size acc) idx idx ;;
    e' <- get t ei ;;
    t' <- set_ t ei (mkHent None (hv1 e') (hv2 e')) ;;
    Ok (with_tab acc t', true)
  end.

(** HashAccumulator.h:202-209 insert(key) of the key-value table *)
Definition insertKey (acc : hash V) (key : nat) : res (hash V * bool) :=
  idx <- findIdx acc key ;;
  e <- get (h_tab acc) idx ;;
  match hk e with
  | Some _ => Ok (acc, false)
  | None => t <- set_ (h_tab acc) idx (mkHent (Some key) (hv1 e) (Some false)) ;; Ok (with_tab acc t, true)
  end.

(** HashAccumulator.h:182-191 insert<true>(idx, key, value1, value2) *)
Definition insertAt (acc : hash V) (idx key : nat) (v : V) : res (hash V) :=
  t <- set_ (h_tab acc) idx (mkHent (Some key) (Some v) (Some true)) ;;
  Ok (mkHash t (h_size acc) (h_max acc) (h_keys acc ++ [key])).

(** HashAccumulator.h:271-281 insert<TrackKeys>(key) of the key-only table *)
Definition insertOnly (track : bool) (acc : hash V) (key : nat) : res (hash V * bool) :=
  idx <- findIdx acc key ;;
  e <- get (h_tab acc) idx ;;
  match hk e with
  | Some _ => Ok (acc, false)
  | None =>
    t <- set_ (h_tab acc) idx (mkHent (Some key) (hv1 e) (hv2 e)) ;;
    Ok (mkHash t (h_size acc) (h_max acc) (if track then h_keys acc ++ [key] else h_keys acc), true)
  end.

(** HashAccumulator.h:229-241 body of gather(idxPtr, valPtr, keysBegin, keysEnd) *)
Definition gatherKey (so : hash V * out V) (key : nat) : res (hash V * out V) :=
  let '(acc, o) := so in
  idx <- findIdxForce acc key ;;
  e <- get (h_tab acc) idx ;;
  match hv2 e with
  | None => Err Uninit
  | Some true =>
    match hk e, hv1 e with
    | Some k, Some v =>
      o' <- emit o k v ;;
      t <- set_ (h_tab acc) idx (mkHent None None (hv2 e)) ;;
      Ok (with_tab acc t, o')
    | _, _ => Err Uninit
    end
  | Some false =>
    t <- set_ (h_tab acc) idx (mkHent None (hv1 e) (hv2 e)) ;;
    Ok (with_tab acc t, o)
  end.

(** HashAccumulator.h:244-249 gatherList<Sorted> *)
Definition gatherList (sorted : bool) (acc : hash V) (o : out V) : res (hash V * out V) :=
  let keys := if sorted then merge_sort le (h_keys acc) else h_keys acc in
  '(acc', o') <- foldM gatherKey keys (acc, o) ;;
  Ok (mkHash (h_tab acc') (h_size acc') (h_max acc') [], o').

(** HashAccumulator.h:283-290 resetStatesList *)
Definition resetStatesList (acc : hash V) : res (hash V) :=
  acc' <- foldM (fun acc key =>
    idx <- findIdxForce acc key ;;
    e <- get (h_tab acc) idx ;;
    t <- set_ (h_tab acc) idx (mkHent None (hv1 e) (hv2 e)) ;;
    Ok (with_tab acc t)) (h_keys acc) acc ;;
  Ok (mkHash (h_tab acc') (h_size acc') (h_max acc') []).

(** MaskedHashAlgorithm.h:39-62 MaskedHash::symbolicRow *)
Definition hashSymbolicRow (A B M : csr V) (row : nat) (acc : hash V) : res (hash V * nat) :=
  '(mb, me) <- row_bounds M row ;;
  acc <- resize acc (me - mb) ;;
  acc <- mask_loop M row (fun c acc => '(acc', _) <- insertOnly false acc c ;; Ok acc') acc ;;
  '(acc, n) <- prod_loop A B row (fun j k '(acc, n) =>
      c <- get (colids B) k ;;
      '(acc', erased) <- hErase acc c ;;
      Ok (acc', if erased : bool then n + 1 else n)) (acc, 0) ;;
  acc <- hResetStates acc ;;
  Ok (acc, n).

(** MaskedHashAlgorithm.h:80-90 body of the product loop of MaskedHash::numericRow *)
Definition hashBody (A B : csr V) (j k : nat) (acc : hash V) : res (hash V) :=
  c <- get (colids B) k ;;
  r <- find acc c ;;
  match r with
  | None => Ok acc
  | Some idx =>
    e <- get (h_tab acc) idx ;;
    match hv2 e with
    | None => Err Uninit
    | Some true =>
      match hv1 e with
      | None => Err Uninit
      | Some v =>
        a <- get (values A) j ;; b <- get (values B) k ;;
        t <- set_ (h_tab acc) idx (mkHent (hk e) (Some (add v (mul a b))) (hv2 e)) ;;
        Ok (with_tab acc t)
      end
    | Some false =>
      a <- get (values A) j ;; b <- get (values B) k ;;
      t <- set_ (h_tab acc) idx (mkHent (hk e) (Some (mul a b)) (Some true)) ;;
      Ok (with_tab acc t)
    end
  end.

(** MaskedHashAlgorithm.h:64-97 MaskedHash::numericRow *)
Definition hashNumericRow (A B M : csr V) (row : nat) (acc : hash V) (o : out V)
  : res (hash V * out V) :=
  '(mb, me) <- row_bounds M row ;;
  acc <- resize acc (me - mb) ;;
  acc <- mask_loop M row (fun c acc => '(acc', _) <- insertKey acc c ;; Ok acc') acc ;;
  acc <- prod_loop A B row (fun j k acc => hashBody A B j k acc) acc ;;
  mask_loop M row (fun c so => gatherKey so c) (acc, o).

(** MaskedHashAlgorithm.h:133-157 MaskedHashComplemented::symbolicRow; [Z] because of [--currRowNvals] *)
Definition hashSymbolicRowC (A B M : csr V) (row flops : nat) (acc : hash V) : res (hash V * Z) :=
  '(mb, me) <- row_bounds M row ;;
  acc <- resize acc ((me - mb) + flops) ;;
  '(acc, n) <- prod_loop A B row (fun j k '(acc, n) =>
      c <- get (colids B) k ;;
      '(acc', ins) <- insertOnly true acc c ;;
      Ok (acc', if ins : bool then (n + 1)%Z else n)) (acc, 0%Z) ;;
  '(acc, n) <- mask_loop M row (fun c '(acc, n) =>
      r <- find acc c ;;
      Ok (acc, match r with Some _ => (n - 1)%Z | None => n end)) (acc, n) ;;
  acc <- resetStatesList acc ;;
  Ok (acc, n).

(** MaskedHashAlgorithm.h:175-184 body of the product loop of MaskedHashComplemented::numericRow *)
Definition hashBodyC (A B : csr V) (j k : nat) (acc : hash V) : res (hash V) :=
  c <- get (colids B) k ;;
  idx <- findIdx acc c ;;
  e <- get (h_tab acc) idx ;;
  match hk e with
  | None =>
    a <- get (values A) j ;; b <- get (values B) k ;;
    insertAt acc idx c (mul a b)
  | Some _ =>
    match hv2 e with
    | None => Err Uninit
    | Some true =>
      match hv1 e with
      | None => Err Uninit
      | Some v =>
        a <- get (values A) j ;; b <- get (values B) k ;;
        t <- set_ (h_tab acc) idx (mkHent (hk e) (Some (add v (mul a b))) (hv2 e)) ;;
        Ok (with_tab acc t)
      end
    | Some false => Ok acc
    end
  end.

(** MaskedHashAlgorithm.h:159-193 MaskedHashComplemented::numericRow *)
Definition hashNumericRowC (sorted : bool) (A B M : csr V) (row flops : nat) (acc : hash V) (o : out V)
  : res (hash V * out V) :=
  '(mb, me) <- row_bounds M row ;;
  acc <- resize acc ((me - mb) + flops) ;;
  acc <- mask_loop M row (fun c acc => '(acc', _) <- insertKey acc c ;; Ok acc') acc ;;
  acc <- prod_loop A B row (fun j k acc => hashBodyC A B j k acc) acc ;;
  '(acc, o) <- gatherList sorted acc o ;;
  acc <- mask_loop M row (fun c acc => '(acc', _) <- hErase acc c ;; Ok acc') acc ;;
  Ok (acc, o).
End Hash.

(** HashAccumulator.h:68-74 setBuffer hands over a table of EMPTY (0xFF) entries; after a row the
    keys are EMPTY again while the other fields may hold leftovers.  This is the condition under
    which the next row may start. *)
Definition hash_clean {V} (acc : hash V) : Prop :=
  h_keys acc = [] /\ forall i e, h_tab acc !! i = Some e -> hk e = None.
(** Between rows: no key stored, no tracked key, and every slot beyond the largest size used so
    far (_maxSize, HashAccumulator.h:91) is still as setBuffer handed it over, which is what
    releaseBuffer (:76-84) reports. *)
Record hash_ok {V} (acc : hash V) : Prop := mkHashOk {
  ho_clean : hash_clean acc;
  ho_max : h_max acc <= length (h_tab acc);
  ho_pristine : forall i, h_max acc <= i -> i < length (h_tab acc) ->
      h_tab acc !! i = Some (mkHent None None None) }.
(** [fits w n]: a table for [n] keys can be sized in the w-bit index type T
    (HashAccumulator.h:41-49). *)
Definition fits (w : N) (n : nat) : Prop :=
  (5 <= w <= 64 /\ 4 * (N.of_nat n + 1) <= 2 ^ (w - 1))%N.
(** A table as handed over by setBuffer.  HashAccumulator.h 68-74. *)
Definition hash_fresh {V} (cap : nat) : hash V := mkHash (repeat (mkHent None None None) cap) 0 0 [].
