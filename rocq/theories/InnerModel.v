(** Model of the inner-product (dot) row kernels: spgemm-blocks/inner/InnerAlgorithm.h.
    B is given by columns (CSC). *)
From Verif Require Import Base Spec KernelBase.

Section Inner.
Context {V : Type} (mul add : V -> V -> V).

(** Column bounds [B.colptr[c]], [B.colptr[c+1]] (InnerAlgorithm.h:18-19,46-47). *)
Definition col_bounds (B : csc V) (c : nat) : res (nat * nat) :=
  b <- get (colptr B) c ;;
  e <- get (colptr B) (c + 1) ;;
  Ok (b, e).

(** InnerAlgorithm.h:22-31: the [while (true)] loop of symbolicRow; true = a common index was
    found (currRowNvals++). *)
Fixpoint innerSym (fuel : nat) (A : csr V) (B : csc V) (ae be ia ib : nat) : res bool :=
  match fuel with
  | O => Err OutOfFuel
  | Datatypes.S fuel' =>
    ka <- get (colids A) ia ;;
    kb <- get (rowids B) ib ;;
    if ka <? kb then
      if ia + 1 =? ae then Ok false else innerSym fuel' A B ae be (ia + 1) ib
    else if kb <? ka then
      if ib + 1 =? be then Ok false else innerSym fuel' A B ae be ia (ib + 1)
    else Ok true
  end.

(** InnerAlgorithm.h:9-35 symbolicRow; returns the value stored in rowNvals[row]. *)
Definition innerSymbolicRow (A : csr V) (B : csc V) (M : csr V) (row : nat) : res nat :=
  mask_loop M row (fun c n =>
    '(ab, ae) <- row_bounds A row ;;
    if ab =? ae then Ok n
    else
      '(bb, be) <- col_bounds B c ;;
      if bb =? be then Ok n
      else
        hit <- innerSym ((ae - ab) + (be - bb)) A B ae be ab bb ;;
        Ok (if hit : bool then n + 1 else n)) 0.

(** InnerAlgorithm.h:53-68: the [while (true)] loop of numericRow.  [None] is active = false (and
    [value] not written yet), [Some v] is active = true and value = v. *)
Fixpoint innerDot (fuel : nat) (A : csr V) (B : csc V) (ae be ia ib : nat) (s : option V)
  : res (option V) :=
  match fuel with
  | O => Err OutOfFuel
  | Datatypes.S fuel' =>
    ka <- get (colids A) ia ;;
    kb <- get (rowids B) ib ;;
    if ka <? kb then
      if ia + 1 =? ae then Ok s else innerDot fuel' A B ae be (ia + 1) ib s
    else if kb <? ka then
      if ib + 1 =? be then Ok s else innerDot fuel' A B ae be ia (ib + 1) s
    else
      a <- get (values A) ia ;;
      b <- get (c_values B) ib ;;
      let s' := Some (match s with Some v => add v (mul a b) | None => mul a b end) in
      if ia + 1 =? ae then Ok s'
      else if ib + 1 =? be then Ok s'
      else innerDot fuel' A B ae be (ia + 1) (ib + 1) s'
  end.

(** InnerAlgorithm.h:37-75 numericRow. *)
Definition innerNumericRow (A : csr V) (B : csc V) (M : csr V) (row : nat) (o : out V) : res (out V) :=
  mask_loop M row (fun c o =>
    '(ab, ae) <- row_bounds A row ;;
    if ab =? ae then Ok o
    else
      '(bb, be) <- col_bounds B c ;;
      if bb =? be then Ok o
      else
        r <- innerDot ((ae - ab) + (be - bb)) A B ae be ab bb None ;;
        match r with Some v => emit o c v | None => Ok o end) o.
End Inner.
