(** OuterSpGEMM, the outer product with blocked propagation, of outer_mult2.h 45-398: blocks of rows and the columns of a thread are cut by
    their number of products.

    Simplifications: those of OuterModel, whose parts that outer_mult2.h repeats word for word are used here.  The parallel regions have as many threads
    as omp_get_max_threads returned, fewer than 2^16 (omp_set_dynamic(0), 217).  The volumes are of type double but hold numbers that an
    int holds, so they are exact; once the sum of flops_by_rows is an int, so are all other counts of products, and only that
    sum is checked.  blocker_row_count (82), indexed as flops_by_row_blockers and read nowhere, is left out.  The array of rows_to_blockers (226)
    remains referred to by a static variable until the next call and is not counted as lost.  fast_mod, getFlop, getReqMemory, compareTuple,
    initializeBlockerBoundary and ncols_of_A are not used by OuterSpGEMM. *)
From Verif Require Export OuterModel.
From stdpp Require Import list_numbers.
From Verif Require Import Base Spec.

Section Outer2.
Context {V : Type} (mul add : V -> V -> V).
Notation store := (gmap nat (obj V)).
Notation triple := (nat * nat * V)%type.

(** Body of the loop over the columns: outer_mult2.h 64-69; the state is flops_by_iters and flops_by_rows *)
Definition flopCol (A : csc V) (B : csr V) (i : nat) (s : list nat * list nat) : res (list nat * list nat) :=
  let '(its, frs) := s in
  y <- get (rowptr B) (i + 1) ;;
  x <- get (rowptr B) i ;;
  e <- get (colptr A) (i + 1) ;;
  b <- get (colptr A) i ;;
  its <- set_ its i ((y - x) * (e - b)) ;;
  frs <- for_ b e (fun j frs =>
    r <- get (rowids A) j ;;
    f <- get frs r ;;
    set_ frs r (f + (y - x))) frs ;;
  Ok (its, frs).

(** total_flops, of type int: 71-73 *)
Definition totalFlops (frs : list nat) : res nat :=
  if (N.of_nat (sum_list frs) <? 2 ^ 31)%N then Ok (sum_list frs) else Err OutOfBounds.
(** Division of ints: 75, 76 *)
Definition divInt (n d : nat) : res nat := if d =? 0 then Err DivByZero else Ok (n / d).

(** The state of the loop of 83-101: rows_to_blockers, thread_rows_offset, flops_by_row_blockers, cur_blocker_id, cur_blocker_volumn, cur_thread_id,
    cur_thread_volumn *)
Record cutState : Type := mkCut { cu_rtb : list (option nat); cu_offs : list nat; cu_fl : list nat; cu_b : nat; cu_bv : nat; cu_t : nat; cu_tv : nat }.

(** Body of that loop: 85-100 *)
Definition cutRow (its frs : list nat) (avgB avgT : nat) (i : nat) (c : cutState) : res cutState :=
  f <- get frs i ;;
  g <- get its i ;;
  let bv := cu_bv c + f in
  let tv := cu_tv c + g in
  fl <- set_ (cu_fl c) (cu_b c) bv ;;
  rtb <- set_ (cu_rtb c) i (Some (cu_b c)) ;;
  let '(b, bv) := if avgB <? bv then (cu_b c + 1, 0) else (cu_b c, bv) in
  if avgT <? tv then
    offs <- set_ (cu_offs c) (cu_t c) i ;;
    Ok (mkCut rtb offs fl b bv (cu_t c + 1) 0)
  else Ok (mkCut rtb (cu_offs c) fl b bv (cu_t c) tv).

(** do_symbolic(A, B, 0, A.cols, ...): 45-105.  flops_by_iters (57), flops_by_rows (223), flops_by_row_blockers (222) and thread_rows_offset
    (225) start with zeros, rows_to_blockers (226) is not initialised. *)
Definition doSymbolic (A : csc V) (B : csr V) (nb nth : nat) : res (list (option nat) * list nat * list nat) :=
  let n := c_rows A in
  '(its, frs) <- for_ 0 (c_cols A) (flopCol A B) (replicate n 0, replicate n 0) ;;
  total <- totalFlops frs ;;
  avgB <- divInt total nb ;;
  avgT <- divInt total nth ;;
  rtb <- set_ (replicate n None) 0 (Some 0) ;;
  offs <- set_ (replicate (nth + 1) 0) 0 0 ;;
  c <- for_ 0 n (cutRow its frs avgB avgT) (mkCut rtb offs (replicate nb 0) 0 0 1 0) ;;
  offs <- set_ (cu_offs c) (cu_t c) n ;;
  Ok (cu_rtb c, offs, cu_fl c).

(** ExtractKey2: 126-136 *)
Definition key16 (x : triple) : N :=
  N.lor (N.shiftl (N.of_nat x.1.1) 16 mod 2 ^ 32) (N.of_nat x.1.2 mod 2 ^ 32).

(** row_blocker_id: 269 *)
Definition blockId2 (rtb : list (option nat)) (row : nat) : res nat := b <- getI rtb row ;; Ok (u16 b).

(** Thread [t] of 253-318 *)
Definition outerThread2 (A : csc V) (B : csr V) (rtb : list (option nat)) (offs : list nat) (nb bw t : nat) : fprog triple unit :=
  fbind (flift (f <- get offs t ;; l <- get offs (t + 1) ;; Ok (f, l))) (fun '(f, l) =>
  outerThread mul A B (blockId2 rtb) nb bw (seq f (l - f))).

(** OuterSpGEMM(A, B, C, nblockers, nblockchars): 209-398.  The cells lost before the tail are those of flops_by_iters (57), blocker_row_count (82),
    flops_by_rows (223), thread_rows_offset (225), global_blocker_counters (229), and sorting_buffer (233) with its buffers (251). *)
Definition Outer2_outcome (top nts nth iA iB iC nblockers nblockchars : nat) (s : store) : res (store * nat) -> Prop :=
  let nb := u16 nblockers in
  let bw := u16 nblockchars in
  obind (only (A <- deref_csc s iA ;; B <- deref s iB ;; '(rtb, offs, fl) <- doSymbolic A B nb nth ;; Ok (A, B, rtb, offs, fl))) (fun '(A, B, rtb, offs, fl) =>
  obind (only (_ <- foldM (fun _ f => newTuples (N.of_nat f)) fl 0%N ;;
               mx <- maxElement fl ;;
               _ <- newTuples (N.of_nat mx) ;;
               _ <- newTuples (N.of_nat nb * N.of_nat bw) ;; Ok mx)) (fun mx =>
  obind (foutcome ((replicate nb 0, (fun f => replicate f None) <$> fl), outerThread2 A B rtb offs nb bw <$> seq 0 nth)) (fun '(cnts, blks) =>
  outerTail add key16 top nts iA iB iC nb (c_rows A) mx (c_rows A + nb + c_rows A + (nth + 1) + nb + nth + nth * mx) s cnts blks))).
End Outer2.
