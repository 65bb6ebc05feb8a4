(** Model of the masked sparse accumulators (MSA) and their row kernels:
    spgemm-blocks/msa/MaskedSparseAccumulator1A.h, MaskedSparseAccumulator2A.h,
    MSAAlgorithm.h, MSAAlgorithm_old.h. *)
From stdpp Require Import sorting.
From Verif Require Import Base Spec KernelBase.

(** Values a uint8_t state takes: 0xFF, 0, 1 (MaskedSparseAccumulator1A.h:38-43). *)
Inductive sbyte := FF | B0 | B1.
Global Instance sbyte_eq_dec : EqDecision sbyte.
Proof. solve_decision. Defined.

(** MaskedSparseAccumulator1A.h:39, 2A.h:37 *)
Definition NOT_ALLOWED (c : bool) : sbyte := if negb c then FF else B0.
(** MaskedSparseAccumulator1A.h:40, 2A.h:38 *)
Definition ALLOWED (c : bool) : sbyte := if negb c then B0 else FF.
(** MaskedSparseAccumulator1A.h:41, 2A.h:39 *)
Definition INITIALIZED : sbyte := B1.
(** MaskedSparseAccumulator1A.h:43, 2A.h:41 *)
Definition DEFAULT_STATE (c : bool) : sbyte := if negb c then NOT_ALLOWED c else ALLOWED c.

(** Accumulator contents (MaskedSparseAccumulator1A.h:46-50, 2A.h:16-27,44-48).
    Simplification: the one-array layout (array of {state,value}) and the two-array
    layout are both kept as a list of states and a list of values; [None] is a value
    cell whose bytes are not a value written by the kernel (0xFF filler or garbage).
    The byte layout and the hand-over of the scratch buffer are modelled in MemModel.v.
    The symbolic accumulator (ValueT = void) has [vl = []]. *)
Record msa (V : Type) := mkMsa { st : list sbyte; vl : list (option V); dirtyIdx : list nat }.
Arguments mkMsa {V} _ _ _.
Arguments st {V} _.
Arguments vl {V} _.
Arguments dirtyIdx {V} _.

Section Msa.
Context {V : Type} (mul add : V -> V -> V).

(** assert(0 <= idx && idx < _maxIndex)  1A.h:83,90,96,102,109,116,124,132 *)
Definition in_range (acc : msa V) (idx : nat) : res unit := assert_ (idx <? length (st acc)).

(** _entries[idx].state = s: 1A.h 105, 112, 119, 127, 136 *)
Definition set_state (acc : msa V) (idx : nat) (s : sbyte) : res (msa V) :=
  st' <- set_ (st acc) idx s ;; Ok (mkMsa st' (vl acc) (dirtyIdx acc)).
(** _entries[idx].value = v, or memset to 0xFF ([None]): 1A.h 137; MSAAlgorithm.h 170-177 *)
Definition set_value (acc : msa V) (idx : nat) (v : option V) : res (msa V) :=
  vl' <- set_ (vl acc) idx v ;; Ok (mkMsa (st acc) vl' (dirtyIdx acc)).

(** 1A.h:82-86 getState; 1A.h:95-99 operator[] (state part) *)
Definition get_state (acc : msa V) (idx : nat) : res sbyte :=
  _ <- in_range acc idx ;; get (st acc) idx.

(** 1A.h:88-93 getValue; reading a cell that holds no value is [Uninit] *)
Definition get_value (acc : msa V) (idx : nat) : res V :=
  _ <- in_range acc idx ;; getI (vl acc) idx.

(** 1A.h:101-106 setAllowed *)
Definition setAllowed (c : bool) (acc : msa V) (key : nat) : res (msa V) :=
  s <- get_state acc key ;;
  _ <- assert_ (bool_decide (s = NOT_ALLOWED c)) ;;
  set_state acc key (ALLOWED c).

(** 1A.h:108-113 setNotAllowed *)
Definition setNotAllowed (c : bool) (acc : msa V) (key : nat) : res (msa V) :=
  s <- get_state acc key ;;
  _ <- assert_ (bool_decide (s = ALLOWED c)) ;;
  set_state acc key (NOT_ALLOWED c).

(** 1A.h:115-121 setInitialized *)
Definition setInitialized (c : bool) (acc : msa V) (key : nat) : res (msa V) :=
  s <- get_state acc key ;;
  _ <- assert_ (bool_decide (s = ALLOWED c)) ;;
  acc' <- set_state acc key INITIALIZED ;;
  Ok (mkMsa (st acc') (vl acc') (dirtyIdx acc' ++ [key])).

(** 1A.h:123-129 erase *)
Definition erase (c : bool) (acc : msa V) (idx : nat) : res (msa V * bool) :=
  s <- get_state acc idx ;;
  if bool_decide (s = DEFAULT_STATE c) then Ok (acc, false)
  else acc' <- set_state acc idx (DEFAULT_STATE c) ;; Ok (acc', true).

(** 1A.h:131-138, 2A.h:142-149 clear; [hasv] is HAS_VALUE *)
Definition clear (hasv c : bool) (acc : msa V) (idx : nat) : res (msa V) :=
  s <- get_state acc idx ;;
  if bool_decide (s = DEFAULT_STATE c) then Ok acc
  else
    acc' <- set_state acc idx (DEFAULT_STATE c) ;;
    if hasv then set_value acc' idx None else Ok acc'.

(** 1A.h:140-143 resetStates() *)
Definition resetStates (hasv c : bool) (acc : msa V) : res (msa V) :=
  acc' <- foldM (clear hasv c) (dirtyIdx acc) acc ;;
  Ok (mkMsa (st acc') (vl acc') []).

(** 1A.h:145-149 resetStates(first, last) on the mask row *)
Definition resetStatesMask (hasv c : bool) (M : csr V) (row : nat) (acc : msa V) : res (msa V) :=
  acc' <- mask_loop M row (fun key acc => clear hasv c acc key) acc ;;
  resetStates hasv c acc'.

(** 1A.h:151-161 gather<Sorted> *)
Definition gather (sorted c : bool) (acc : msa V) (o : out V) : res (msa V * out V) :=
  let keys := if sorted then merge_sort le (dirtyIdx acc) else dirtyIdx acc in
  '(acc', o') <- foldM (fun '(acc, o) idx =>
      v <- get_value acc idx ;;
      o' <- emit o idx v ;;
      acc' <- clear true c acc idx ;;
      Ok (acc', o')) keys (acc, o) ;;
  Ok (mkMsa (st acc') (vl acc') [], o').

(** MSAAlgorithm.h:39-71 MSABase<..., false>::symbolicRow (same text in MSAAlgorithm_old.h:36-68,139-171).
    Returns the value stored in rowNvals[row]. *)
Definition msaSymbolicRow (A B M : csr V) (row : nat) (acc : msa V) : res (msa V * nat) :=
  acc <- mask_loop M row (fun c acc => setAllowed false acc c) acc ;;
  '(acc, n) <- prod_loop A B row (fun j k '(acc, n) =>
      c <- get (colids B) k ;;
      '(acc', erased) <- erase false acc c ;;
      Ok (acc', if erased : bool then n + 1 else n)) (acc, 0) ;;
  acc <- mask_loop M row (fun c acc => clear false false acc c) acc ;;
  Ok (acc, n).

(** MSAAlgorithm.h:103-137 MSABase<..., true>::symbolicRow.  [Z] because of [currRowNvals--]. *)
Definition msaSymbolicRowC (A B M : csr V) (row : nat) (acc : msa V) : res (msa V * Z) :=
  '(acc, n) <- prod_loop A B row (fun j k '(acc, n) =>
      c <- get (colids B) k ;;
      s <- get_state acc c ;;
      if bool_decide (s <> INITIALIZED)
      then acc' <- setInitialized true acc c ;; Ok (acc', (n + 1)%Z)
      else Ok (acc, n)) (acc, 0%Z) ;;
  '(acc, n) <- mask_loop M row (fun c '(acc, n) =>
      '(acc', erased) <- erase true acc c ;;
      Ok (acc', if erased : bool then (n - 1)%Z else n)) (acc, n) ;;
  acc <- resetStates false true acc ;;
  Ok (acc, n).

(** Body of the product loop of the one-array kernel, plain mask
    (MSAAlgorithm.h:170-177; MSAAlgorithm_old.h:85-92). *)
Definition body1A (A B : csr V) (j k : nat) (acc : msa V) : res (msa V) :=
  c <- get (colids B) k ;;
  s <- get_state acc c ;;
  if bool_decide (s = ALLOWED false) then
    a <- get (values A) j ;; b <- get (values B) k ;;
    acc <- set_value acc c (Some (mul a b)) ;;
    set_state acc c INITIALIZED
  else if bool_decide (s = INITIALIZED) then
    v <- get_value acc c ;;
    a <- get (values A) j ;; b <- get (values B) k ;;
    set_value acc c (Some (add v (mul a b)))
  else Ok acc.

(** Body of the product loop of the two-array kernel, plain mask
    (MSAAlgorithm.h:264-275; MSAAlgorithm_old.h:189-200). *)
Definition body2A (A B : csr V) (j k : nat) (acc : msa V) : res (msa V) :=
  c <- get (colids B) k ;;
  s <- get_state acc c ;;
  if bool_decide (s = NOT_ALLOWED false) then Ok acc
  else if bool_decide (s = ALLOWED false) then
    a <- get (values A) j ;; b <- get (values B) k ;;
    acc <- set_value acc c (Some (mul a b)) ;;
    set_state acc c INITIALIZED
  else
    _ <- assert_ (bool_decide (s = INITIALIZED)) ;;
    v <- get_value acc c ;;
    a <- get (values A) j ;; b <- get (values B) k ;;
    set_value acc c (Some (add v (mul a b))).

(** MSAAlgorithm.h:155-192 (MSA1A<false,false>::numericRow) and 249-290 (MSA2A<false,false>::numericRow);
    [two] selects the two-array body.  Old versions: MSAAlgorithm_old.h:70-107,173-227. *)
Definition msaNumericRow (two : bool) (A B M : csr V) (row : nat) (acc : msa V) (o : out V)
  : res (msa V * out V) :=
  acc <- mask_loop M row (fun c acc => setAllowed false acc c) acc ;;
  acc <- prod_loop A B row (fun j k acc => if two then body2A A B j k acc else body1A A B j k acc) acc ;;
  mask_loop M row (fun c '(acc, o) =>
    s <- get_state acc c ;;
    o' <- (if bool_decide (s = INITIALIZED)
           then v <- get_value acc c ;; emit o c v
           else Ok o) ;;
    acc' <- clear true false acc c ;;
    Ok (acc', o')) (acc, o).

(** Body of the product loop of the one-array kernel, complemented mask (MSAAlgorithm.h:218-225). *)
Definition body1AC (A B : csr V) (j k : nat) (acc : msa V) : res (msa V) :=
  c <- get (colids B) k ;;
  s <- get_state acc c ;;
  if bool_decide (s = ALLOWED true) then
    a <- get (values A) j ;; b <- get (values B) k ;;
    acc <- set_value acc c (Some (mul a b)) ;;
    setInitialized true acc c
  else if bool_decide (s = INITIALIZED) then
    v <- get_value acc c ;;
    a <- get (values A) j ;; b <- get (values B) k ;;
    set_value acc c (Some (add v (mul a b)))
  else Ok acc.

(** Body of the product loop of the two-array kernel, complemented mask (MSAAlgorithm.h:316-327). *)
Definition body2AC (A B : csr V) (j k : nat) (acc : msa V) : res (msa V) :=
  c <- get (colids B) k ;;
  s <- get_state acc c ;;
  if bool_decide (s = NOT_ALLOWED true) then Ok acc
  else if bool_decide (s = ALLOWED true) then
    a <- get (values A) j ;; b <- get (values B) k ;;
    acc <- set_value acc c (Some (mul a b)) ;;
    setInitialized true acc c
  else
    _ <- assert_ (bool_decide (s = INITIALIZED)) ;;
    v <- get_value acc c ;;
    a <- get (values A) j ;; b <- get (values B) k ;;
    set_value acc c (Some (add v (mul a b))).

(** MSAAlgorithm.h:203-231 (MSA1A<true,Sorted>::numericRow) and 301-333 (MSA2A<true,Sorted>::numericRow). *)
Definition msaNumericRowC (two sorted : bool) (A B M : csr V) (row : nat) (acc : msa V) (o : out V)
  : res (msa V * out V) :=
  acc <- mask_loop M row (fun c acc => setNotAllowed true acc c) acc ;;
  acc <- prod_loop A B row (fun j k acc => if two then body2AC A B j k acc else body1AC A B j k acc) acc ;;
  '(acc, o) <- gather sorted true acc o ;;
  acc <- resetStatesMask true true M row acc ;;
  Ok (acc, o).
End Msa.

(** A freshly acquired accumulator: every state byte 0xFF (= DEFAULT_STATE), no value
    (1A.h:67-73 / 2A.h:69-84 setBuffer; the byte-level justification is in MemModel.v). *)
Definition msa_clean {V} (n : nat) : msa V := mkMsa (repeat FF n) (repeat None n) [].
(** Symbolic accumulator (ValueT = void).  1A.h 67-73, 2A.h 69-84. *)
Definition msa_clean_sym {V} (n : nat) : msa V := mkMsa (repeat FF n) [] [].
