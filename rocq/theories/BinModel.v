(** BIN.h: products per row, the split of the rows over the threads, hash table sizes.

    Simplifications.  Row pointers, column indices and counts are unbounded naturals; [W] is the number of
    values of the index type, used where a product or a shift can wrap around (rows_offset, bin_id, table
    sizes).  The prefix sum itself does not wrap: the theorems ask for total_intprod < W.  The local
    variables [int i, j, k] are taken to be wide enough for the rows and for the table sizes.
    [#pragma omp parallel] regions in which every thread runs one piece of code, given by its number, are
    written with [parfor_ends], which also allows any other distribution of the pieces. *)
From Verif Require Import Base.
From Verif Require Export ParModel ScanModel LegacyScanModel WorkModel.

Section Bin.
Context (W top : nat).

(** Body of the row loop of set_intprod_num: BIN.h 95-100 *)
Definition intprodRow (arpt acol brpt : list nat) (i : nat) : res nat :=
  b <- get arpt i ;;
  e <- get arpt (i + 1) ;;
  for_ b e (fun j nz =>
    c <- get acol j ;;
    y <- get brpt (c + 1) ;;
    x <- get brpt c ;;
    Ok (nz + (y - x))) 0.

(** set_intprod_num: BIN.h 87-107.  The loop writes row_nz; every thread adds its private sum to
    total_intprod in one atomic addition, so the private sums are added up in any order. *)
Definition set_intprod_num_always (arpt acol brpt : list nat) (rows : nat) (nz nz' : list (option nat)) (total : nat) : Prop :=
  parfor_always (intprodRow arpt acol brpt) rows nz nz' total.

(** The array rows_offset: BIN.h 78 *)
Definition bOff : nat := 0.

(** BIN.h 117, the division in long long, the result stored as an index *)
Definition averageW (total nt : nat) : nat := ((total + nt - 1) / nt) mod W.

(** Body of the parallel region of set_rows_offset: BIN.h 124-126; [average_intprod * (tid + 1)] wraps. *)
Definition offBody (ps : list nat) (rows average t : nat) : prog loc nat unit :=
  pbind (lift (lower_bound ps (rows + 1) ((average * (t + 1)) mod W))) (fun e =>
  Wr (bOff, t + 1) (if rows <? e then rows else e) (Ret tt)).

(** set_rows_offset: BIN.h 109-131, [nts] being the number of threads of the prefix sum. *)
Definition set_rows_offset_ends (nts nt : nat) (nz : list nat) (total rows : nat) (off off' : list nat) : Prop :=
  exists ps off1 off2,
    lScan_always 0 Nat.add top nz (rows + 1) nts (replicate (rows + 1) (Some 0)) (Some <$> ps) /\
    1 <= nt /\
    set_ off 0 0 = Ok off1 /\
    parfor_ends (offBody ps rows (averageW total nt)) nt (cells bOff off1) (cells bOff off2) /\
    set_ off2 nt rows = Ok off'.

(** [while (nz_per_row > (min << j)) j++]: BIN.h 196-199 *)
Fixpoint binLoop (fuel min nz j : nat) : res nat :=
  match fuel with
  | O => Err OutOfFuel
  | S fuel' => if (min * 2 ^ j) mod W <? nz then binLoop fuel' min nz (j + 1) else Ok j
  end.

(** Body of the loop of set_bin_id (the array bin_id, BIN.h 79): BIN.h 188-202 *)
Definition bId : nat := 0.
(** One row: BIN.h 190-201 *)
Definition binRow (nz : list nat) (cols min i : nat) : res nat :=
  x <- get nz i ;;
  let n := if cols <? x then cols else x in
  if n =? 0 then Ok 0 else j <- binLoop (S n) min n 0 ;; Ok (j + 1).
(** The row and its store to bin_id[i]: BIN.h 188-202 *)
Definition binBody (nz : list nat) (cols min i : nat) : prog loc nat unit :=
  pbind (lift (binRow nz cols min i)) (fun b => Wr (bId, i) b (Ret tt)).

(** set_bin_id: BIN.h 183-203 *)
Definition set_bin_id_ends (nz : list nat) (rows cols min : nat) (id id' : list nat) : Prop :=
  parfor_ends (binBody nz cols min) rows (cells bId id) (cells bId id').

(** The fields that are used afterwards: BIN.h 71-79 *)
Record bin := mkBin { b_nz : list nat; b_total : nat; b_off : list nat; b_id : list nat }.

(** The constructor BIN(rows, ht_size, threadCount) followed by set_max_bin: BIN.h 40-48, 205-211 *)
Definition set_max_bin_ends (nts nt min : nat) (arpt acol brpt : list nat) (rows cols : nat) (b : bin) : Prop :=
  rows <> 0 /\
  set_intprod_num_always arpt acol brpt rows (replicate rows (Some 0)) (Some <$> b_nz b) (b_total b) /\
  set_rows_offset_ends nts nt (b_nz b) (b_total b) rows (replicate (nt + 1) 0) (b_off b) /\
  set_bin_id_ends (b_nz b) rows cols min (replicate rows 0) (b_id b).

(** [while (k < ht_size) k <<= 1]: BIN.h 145-148, 169-172 *)
Fixpoint growLoop (fuel k sz : nat) : res nat :=
  match fuel with
  | O => Err OutOfFuel
  | S fuel' => if k <? sz then growLoop fuel' ((k * 2) mod W) sz else Ok k
  end.

(** Table size of one thread in create_local_hash_table: BIN.h 138-150 *)
Definition localSize (nz off : list nat) (min cols t : nat) : res nat :=
  lo <- get off t ;;
  hi <- get off (t + 1) ;;
  sz <- for_ lo hi (fun j sz => x <- get nz j ;; Ok (if sz <? x then x else sz)) 0 ;;
  if 0 <? sz then
    let sz := if cols <? sz then cols else sz in
    growLoop (S sz) min sz
  else Ok sz.
End Bin.
