(** OuterSpGEMM, the outer product with blocked propagation: outer_mult.h 20-407.

    Simplifications.  IT is int and NT any type V with its own [*] and [+] ([mul], [add]; double in the code: ExtractKey2
    takes tuple<int32_t, int32_t, double>, of SIZE = 16 bytes).  Index arithmetic is unbounded but for the
    conversions to uint16_t and uint32_t and for the byte counts handed to operator new, which are products of type int:
    overflow there is a fault.  malloc never fails.  memcpy stores one tuple after the other.  Local blockers, their
    counters and the sorting buffer belong to one thread; the block sorted in an iteration of 325-333 belongs to
    that iteration, so those iterations are run one after the other, each with a buffer of any contents.  nnz_per_row_blocker,
    to which every iteration adds its own count only, is written directly.  fast_mod, do_symbolic, getReqMemory,
    compareTuple, initializeBlockerBoundary, total_flop and partition are not used by OuterSpGEMM. *)
From Verif Require Export RadixModel ParModel LegacyScanModel WorkModel DriverModel MatModel.
From Verif Require Import Base Spec.

(** Conversion to uint16_t: outer_mult.h 20-407 *)
Definition u16 (n : nat) : nat := N.to_nat (N.of_nat n mod 2 ^ 16).

(** ** Threads that reserve space by __sync_fetch_and_add and fill it *)
Section Machine.
Context {X : Type}.

(** [FFadd b n]: fetch-and-add of n to global_blocker_counters[b] (286, 307); [FPut b p x]: global_blockers[b][p] = x *)
Inductive fprog (R : Type) : Type :=
| FRet (r : R)
| FFadd (b n : nat) (k : nat -> fprog R)
| FPut (b p : nat) (x : X) (k : fprog R)
| FFail (f : fault).
Global Arguments FRet {R}. Global Arguments FFadd {R}. Global Arguments FPut {R}. Global Arguments FFail {R}.

(** Sequencing; no code of its own (outer_mult.h 248-313) *)
Fixpoint fbind {R S} (p : fprog R) (k : R -> fprog S) : fprog S :=
  match p with
  | FRet r => k r
  | FFadd b n c => FFadd b n (fun v => fbind (c v) k)
  | FPut b i x c => FPut b i x (fbind c k)
  | FFail f => FFail f
  end.
(** Sequential code inside a thread; no code of its own (outer_mult.h 248-313) *)
Definition flift {R} (r : res R) : fprog R := match r with Ok x => FRet x | Err f => FFail f end.
(** A for loop: outer_mult.h 261-294 *)
Fixpoint ffor_n {S} (n lo : nat) (body : nat -> S -> fprog S) (s : S) : fprog S :=
  match n with
  | O => FRet s
  | Datatypes.S n' => fbind (body lo s) (ffor_n n' (Datatypes.S lo) body)
  end.
(** [for (i = lo; i < hi; ++i)]: outer_mult.h 261-294 *)
Definition ffor {S} (lo hi : nat) (body : nat -> S -> fprog S) (s : S) : fprog S := ffor_n (hi - lo) lo body s.

(** The shared memory: global_blocker_counters and the blocks.  outer_mult.h 230-247. *)
Definition fmem : Type := list nat * list (list (option X)).
(** Memory and threads of the parallel region: outer_mult.h 248-313 *)
Definition fcfg : Type := fmem * list (fprog unit).

(** One step of one thread of the region: outer_mult.h 248-313 *)
Inductive fstep : fcfg -> fcfg -> Prop :=
| fstep_fadd c m ps t b n k v : ps !! t = Some (FFadd b n k) -> c !! b = Some v ->
    fstep ((c, m), ps) ((<[b := v + n]> c, m), <[t := k v]> ps)
| fstep_put c m ps t b p x k blk : ps !! t = Some (FPut b p x k) -> m !! b = Some blk -> p < length blk ->
    fstep ((c, m), ps) ((c, <[b := <[p := Some x]> blk]> m), <[t := k]> ps).

(** The next step of a thread is a fault: outer_mult.h 248-313 *)
Definition fthread_fault (c : list nat) (m : list (list (option X))) (p : fprog unit) (f : fault) : Prop :=
  match p with
  | FFail f' => f = f'
  | FFadd b _ _ => c !! b = None /\ f = OutOfBounds
  | FPut b i _ _ => (forall blk, m !! b = Some blk -> length blk <= i) /\ f = OutOfBounds
  | FRet _ => False
  end.

(** A data race: two threads about to store to the same cell of a block.  outer_mult.h 248-313. *)
Definition frace (c : fcfg) : Prop :=
  exists t u b p x y k k', t <> u /\ c.2 !! t = Some (FPut b p x k) /\ c.2 !! u = Some (FPut b p y k').

(** Outcomes: some thread faults, or two race, or there are runs of any length, or all threads reach the end.
    outer_mult.h 248-313. *)
Inductive foutcome (c : fcfg) : res fmem -> Prop :=
| fout_fault cn m ps t p f : rtc fstep c ((cn, m), ps) -> ps !! t = Some p -> fthread_fault cn m p f -> foutcome c (Err f)
| fout_race c' : rtc fstep c c' -> frace c' -> foutcome c (Err DataRace)
| fout_long : ~ (exists n, forall k c', nsteps fstep k c c' -> k <= n) -> foutcome c (Err OutOfFuel)
| fout_done m ps : rtc fstep c (m, ps) -> Forall (fun p => p = FRet tt) ps -> foutcome c (Ok m).
End Machine.
Arguments fprog : clear implicits.
Arguments fmem : clear implicits.
Arguments fcfg : clear implicits.

(** Sets of outcomes, one phase after the other.  outer_mult.h 213-407. *)
Definition obind {R S} (P : res R -> Prop) (k : R -> res S -> Prop) : res S -> Prop :=
  fun o => (exists f, P (Err f) /\ o = Err f) \/ (exists r, P (Ok r) /\ k r o).
(** A phase with one outcome: outer_mult.h 213-407 *)
Definition only {R} (r : res R) : res R -> Prop := fun o => o = r.

Section Outer.
Context {V : Type} (mul add : V -> V -> V).
Notation store := (gmap nat (obj V)).
(** tuple<IT, IT, NT>: row, column, value *)
Notation triple := (nat * nat * V)%type.

(** nrows_per_blocker: 222; A.rows and num_blockers are int and uint16_t *)
Definition rowsPerBlock (nrows nb : nat) : res nat :=
  if nrows <=? nb * 64 then Ok 64 else if nb =? 0 then Err DivByZero else Ok ((nrows + nb - 1) / nb).
(** row_blocker_id: 59, 264 *)
Definition blockId (R row : nat) : nat := u16 (row / R).

(** Body of the column loop of do_static_symbolic: 56-62 *)
Definition symCol (A : csc V) (B : csr V) (R : nat) (fl : list nat) (i : nat) : res (list nat) :=
  y <- get (rowptr B) (i + 1) ;;
  x <- get (rowptr B) i ;;
  b <- get (colptr A) i ;;
  e <- get (colptr A) (i + 1) ;;
  for_ b e (fun j fl =>
    r <- get (rowids A) j ;;
    f <- get fl (blockId R r) ;;
    set_ fl (blockId R r) (f + (y - x))) fl.

(** 53-63: every thread adds up in a copy of its own, starting from 0; the copies are added to the array. *)
Definition symbolic (A : csc V) (B : csr V) (R nb : nat) (asg : list (list nat)) : res (list nat) :=
  foldM (fun fl its =>
    own <- foldM (symCol A B R) its (replicate nb 0) ;;
    Ok (zip_with Nat.add fl own)) asg (replicate nb 0).

(** [::operator new(SIZE * n)], an array of [n] tuples: 238, 252, 254 *)
Definition newTuples (n : N) : res N := if (16 * n <? 2 ^ 31)%N then Ok n else Err OutOfBounds.

(** [*std::max_element(...)]: 239 *)
Definition maxElement (l : list nat) : res nat :=
  match l with [] => Err OutOfBounds | x :: l => Ok (foldr Nat.max x l) end.

(** memcpy of [n] tuples from the local to the global block [b]: 285-289, 306-310 *)
Definition flush (bw b n : nat) (bins : list (option triple)) : fprog triple unit :=
  FFadd b n (fun v => ffor 0 n (fun q _ =>
    fbind (flift (getI bins (b * bw + q))) (fun x => FPut b (v + q) x (FRet tt))) tt).

(** The loop over row idx of B: 268-292; the state is the local blockers and cur_local_blockers - begin_local_blockers *)
Definition pushRow (A : csc V) (B : csr V) (bw b row j lo hi : nat) (s : list (option triple) * nat) :
    fprog triple (list (option triple) * nat) :=
  ffor lo hi (fun k '(bins, cur) =>
    fbind (flift (c <- get (colids B) k ;; a <- get (c_values A) j ;; v <- get (values B) k ;;
                  set_ bins (b * bw + cur) (Some (row, c, mul a v)))) (fun bins =>
    if cur + 1 =? bw then fbind (flush bw b bw bins) (fun _ => FRet (bins, 0))
    else FRet (bins, cur + 1))) s.

(** One column of A: 261-294, where [bid] is the block of a row, 264; the state is the local blockers and their counters *)
Definition pushCol (A : csc V) (B : csr V) (bid : nat -> res nat) (bw : nat) (i : nat) (s : list (option triple) * list nat) :
    fprog triple (list (option triple) * list nat) :=
  fbind (flift (b <- get (colptr A) i ;; e <- get (colptr A) (i + 1) ;; Ok (b, e))) (fun '(b, e) =>
  ffor b e (fun j '(bins, cnts) =>
    fbind (flift (row <- get (rowids A) j ;; k <- bid row ;; cur <- get cnts k ;;
                  x <- get (rowptr B) i ;; y <- get (rowptr B) (i + 1) ;; Ok (row, k, cur, x, y))) (fun '(row, k, cur, x, y) =>
    fbind (pushRow A B bw k row j x y (bins, cur)) (fun '(bins, cur) =>
    flift (cnts <- set_ cnts k cur ;; Ok (bins, cnts))))) s).

(** The columns of one thread: outer_mult.h 261-294 *)
Fixpoint pushCols (A : csc V) (B : csr V) (bid : nat -> res nat) (bw : nat) (its : list nat) (s : list (option triple) * list nat) :
    fprog triple (list (option triple) * list nat) :=
  match its with
  | [] => FRet s
  | i :: its' => fbind (pushCol A B bid bw i s) (pushCols A B bid bw its')
  end.

(** One thread of 248-313: its columns, then what is left in the local blockers *)
Definition outerThread (A : csc V) (B : csr V) (bid : nat -> res nat) (nb bw : nat) (its : list nat) : fprog triple unit :=
  fbind (pushCols A B bid bw its (replicate (nb * bw) None, replicate nb 0)) (fun '(bins, cnts) =>
  ffor 0 nb (fun b _ => fbind (flift (get cnts b)) (fun n => flush bw b n bins)) tt).

(** ExtractKey2: 130-141 *)
Definition key2 (R : nat) (x : triple) : N :=
  N.lor (N.shiftl (N.of_nat (x.1.1 mod R)) 20 mod 2 ^ 32) (N.of_nat x.1.2 mod 2 ^ 32).

(** doMerge: 175-198; the state is [i] and the array *)
Definition doMerge (blk : list (option triple)) (len : nat) : res (nat * list (option triple)) :=
  if len =? 0 then Ok (0, blk)
  else
    '(i, blk) <- for_ 1 len (fun j '(i, blk) =>
      x <- getI blk i ;;
      y <- getI blk j ;;
      if (x.1.2 =? y.1.2) && (x.1.1 =? y.1.1) then
        blk <- set_ blk i (Some (x.1.1, x.1.2, add x.2 y.2)) ;;
        Ok (i, blk)
      else
        blk <- set_ blk (i + 1) (Some y) ;;
        Ok (i + 1, blk)) (0, blk) ;;
    Ok (i + 1, blk).

(** One iteration of 325-333; [buf] is the thread's sorting buffer, [key] is ExtractKey2.  What radix_sort returns is not looked at. *)
Definition sortBlock (key : triple -> N) (buf : list (option triple)) (cnt : nat) (blk : list (option triple)) :
    res (nat * list (option triple)) :=
  '(blk, _, _) <- rsort (RU 4) key cnt blk buf ;;
  doMerge blk cnt.

(** 321-334: the number of entries of every block, and the blocks.  [bufs b] is the buffer used for block [b]. *)
Definition sortBlocks (key : triple -> N) (bufs : nat -> list (option triple)) (cnts : list nat) (blks : list (list (option triple))) (nb : nat) :
    res (list nat * list (list (option triple))) :=
  for_ 0 nb (fun b '(ns, out) =>
    c <- get cnts b ;;
    blk <- get blks b ;;
    '(n, blk) <- sortBlock key (bufs b) c blk ;;
    Ok (ns ++ [n], out ++ [blk])) ([], []).

(** [scan] (utility.h 178-213): what it always ends with; anything else counts as a fault. *)
Definition scanned (top nts : nat) (src : list nat) (N : nat) (out : list (option nat)) : res (list nat) -> Prop :=
  fun o => (exists l, lScan_always 0 Nat.add top src N nts out (Some <$> l) /\ o = Ok l) \/
           ((~ exists l, lScan_always 0 Nat.add top src N nts out (Some <$> l)) /\ o = Err OutOfBounds).

(** 340-345, CSR.h 52-66, 89: [if (C.isEmpty()) C.make_empty(); C.rows = A.rows; C.cols = B.cols].  [lost] counts the cells of C's
    arrays that are neither referred to nor released once 360-362 have replaced the pointers. *)
Definition resetCsr (iA iB iC : nat) (s : store) : res (store * nat * nat * nat) :=
  C <- deref s iC ;;
  let e := nnz C =? 0 in
  let s := if e then <[iC := OMat (mkCsr 0 0 (nnz C) [] (colids C) (values C))]> s else s in
  let lost := (if e && negb (rows C =? 0) then 0 else length (rowptr C)) + length (colids C) + length (values C) in
  A <- deref_csc s iA ;;
  B <- deref s iB ;;
  Ok (s, c_rows A, cols B, lost).

(** The arrays nnz_by_row (228) and C.colids, C.values (347, 349) *)
Definition aNbr : nat := 2.
(** Memory of the copying loop: outer_mult.h 340-368 *)
Definition copyMem (nbr ids : list nat) (vals : list V) : gmap loc (cellv V) :=
  cells aNbr (CN <$> nbr) ∪ arrays ids vals.

(** One iteration of 354-368 *)
Definition copyBlock (cum ns : list nat) (blks : list (list (option triple))) (b : nat) : prog loc (cellv V) unit :=
  pbind (lift (get cum b)) (fun base =>
  pbind (lift (get ns b)) (fun n =>
  pbind (lift (get blks b)) (fun blk =>
  pfor 0 n (fun i _ =>
    pbind (lift (getI blk i)) (fun x =>
    Rd (aNbr, x.1.1) (fun c =>
    match c with
    | CN k => Wr (aNbr, x.1.1) (CN (k + 1)) (
              Wr (aIds, base + i) (CN x.1.2) (
              Wr (aVals, base + i) (CV x.2) (Ret tt)))
    | _ => Fail Uninit
    end))) tt))).

(** The loop, for some distribution of the blocks: it faults, or two threads race, or it can go on for ever, or it ends with these
    arrays.  outer_mult.h 354-368. *)
Definition copied (cum ns : list nat) (blks : list (list (option triple))) (nb : nat) (m : gmap loc (cellv V)) :
    res (list nat * list nat * list V) -> Prop :=
  fun o => exists asg, schedule nb asg /\
    let c := (m, runIts (copyBlock cum ns blks) <$> asg) in
    (exists f, outcome c (Err f) /\ o = Err f) \/
    (~ race_free c /\ o = Err DataRace) \/
    ((~ exists n, forall k c', nsteps step k c c' -> k <= n) /\ o = Err OutOfFuel) \/
    (exists nbr ids vals rs, outcome c (Ok (copyMem nbr ids vals, rs)) /\ o = Ok (nbr, ids, vals)).

(** What follows the products: 321-390.  [nrow] is A.rows as allocated for nnz_by_row (228), [lost0] counts cells lost before. *)
Definition outerTail (key : triple -> N) (top nts iA iB iC nb nrow mx lost0 : nat) (s : store) (cnts : list nat) (blks : list (list (option triple))) :
    res (store * nat) -> Prop :=
  obind (fun o => exists bufs, (forall b, length (bufs b) = mx) /\ o = sortBlocks key bufs cnts blks nb) (fun '(ns, blks) =>
  obind (scanned top nts ns (nb + 1) (replicate (nb + 1) (Some 0))) (fun cum =>
  obind (only (total <- get cum nb ;; '(s1, nr, nc, lost) <- resetCsr iA iB iC s ;; Ok (total, s1, nr, nc, lost))) (fun '(total, s1, nr, nc, lost) =>
  obind (fun o => exists ids0 vals0, length ids0 = total /\ length vals0 = total /\
      copied cum ns blks nb (copyMem (replicate nrow 0) ids0 vals0) o) (fun '(nbr, ids, vals) =>
  obind (scanned top nts nbr (nr + 1) (Some 0 :: replicate nr None)) (fun rp =>
  only (Ok (<[iC := OMat (mkCsr nr nc total rp ids vals)]> s1, lost + lost0))))))).

(** OuterSpGEMM(A, B, C, nblockers, nblockchars): 213-407.  The outcome is the objects and the number of cells that are lost: those of
    C's old arrays, flops_by_rows (227), global_blocker_counters (230), sorting_buffer (234) with its buffers (254), one for each of the
    [nthr] threads of the region, at most [nth]. *)
Definition Outer_outcome (top nts nth iA iB iC nblockers nblockchars : nat) (s : store) : res (store * nat) -> Prop :=
  let nb := u16 nblockers in
  let bw := u16 nblockchars in
  obind (only (A <- deref_csc s iA ;; B <- deref s iB ;; R <- rowsPerBlock (c_rows A) nb ;; Ok (A, B, R))) (fun '(A, B, R) =>
  obind (fun o => exists asg, schedule (c_cols A) asg /\ o = symbolic A B R nb asg) (fun fl =>
  obind (only (_ <- foldM (fun _ f => newTuples (N.of_nat f)) fl 0%N ;;
               mx <- maxElement fl ;;
               _ <- newTuples (N.of_nat nb * N.of_nat bw) ;;
               _ <- newTuples (N.of_nat mx) ;; Ok mx)) (fun mx =>
  obind (fun o => exists asg m, schedule (c_cols A) asg /\ 1 <= length asg <= nth /\
      foutcome ((replicate nb 0, (fun f => replicate f None) <$> fl), outerThread A B (fun row => Ok (blockId R row)) nb bw <$> asg) m /\
      o = (m <- m ;; Ok (length asg, m))) (fun '(nthr, (cnts, blks)) =>
  outerTail (key2 R) top nts iA iB iC nb (c_rows A) mx (c_rows A + nb + nth + nthr * mx) s cnts blks)))).
End Outer.
