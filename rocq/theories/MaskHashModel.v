(** mxm_hash_mask and mxm_hash_mask_wobin (mask_hash_mult.h) with the tables of mask_hash.h.

    Simplifications.  As in BinModel.v, TwoPassModel.v and LpModel.v.  The tuples of a table are kept as
    separate lists of equal length.  [W] is the number of non-negative values of the index types, [w] the
    width in which key * 107 is computed.  All threads asked for with num_threads are taken to exist. *)
From Verif Require Import Base Spec KernelBase.
From Verif Require Export LpModel BinModel TwoPassModel.
From Verif Require Import Spec.

Section MaskHash.
Context {V : Type} (dflt : V) (multop addop : V -> V -> V) (w : N) (W : nat).

(** map_lp with one value per key: mask_hash.h 142-152 *)
Record mapS := mkMapS { ms_size : nat; ms_keys : list (option nat); ms_flag : list bool }.
(** map_lp with two values per key: mask_hash.h 34-48 *)
Record mapN := mkMapN { mn_size : nat; mn_keys : list (option nat); mn_v1 : list V; mn_v2 : list bool }.

(** Constructors: mask_hash.h 156-165, 52-61 *)
Definition mapSize (sz : nat) : res nat := growLoop W (S sz) 16 sz.
(** map_lp without values: mask_hash.h 156-165 *)
Definition mapS_new (sz : nat) : res mapS :=
  size <- mapSize sz ;; Ok (mkMapS size (replicate size None) (replicate size false)).
(** map_lp with values: mask_hash.h 52-61 *)
Definition mapN_new (sz : nat) : res mapN :=
  size <- mapSize sz ;; Ok (mkMapN size (replicate size None) (replicate size dflt) (replicate size false)).

(** insert(key, false): mask_hash.h 169-186; mask_hash_mult.h 85, 188 *)
Definition mapS_insert (c : nat) (s : mapS) : res mapS :=
  '(keys, p, new) <- lpInsert w (ms_keys s) (ms_size s) c ;;
  if (new : bool) then fl <- set_ (ms_flag s) p false ;; Ok (mkMapS (ms_size s) keys fl) else Ok s.
(** insert(key, NT(), false): mask_hash.h 65-83; mask_hash_mult.h 131, 217 *)
Definition mapN_insert (c : nat) (s : mapN) : res mapN :=
  '(keys, p, new) <- lpInsert w (mn_keys s) (mn_size s) c ;;
  if (new : bool) then
    v1 <- set_ (mn_v1 s) p dflt ;; v2 <- set_ (mn_v2 s) p false ;; Ok (mkMapN (mn_size s) keys v1 v2)
  else Ok s.

(** One product in the counting pass: mask_hash_mult.h 93-98, 196-201 *)
Definition mapS_hit (c : nat) (s : mapS * nat) : res (mapS * nat) :=
  let '(s, n) := s in
  hv <- lpFind w (ms_keys s) (ms_size s) c ;;
  match hv with
  | None => Ok (s, n)
  | Some p =>
    f <- get (ms_flag s) p ;;
    if (f : bool) then Ok (s, n)
    else fl <- set_ (ms_flag s) p true ;; Ok (mkMapS (ms_size s) (ms_keys s) fl, n + 1)
  end.

(** One product in the filling pass: mask_hash_mult.h 138-147, 224-233 *)
Definition mapN_hit (c : nat) (x : V) (s : mapN) : res mapN :=
  hv <- lpFind w (mn_keys s) (mn_size s) c ;;
  match hv with
  | None => Ok s
  | Some p =>
    f <- get (mn_v2 s) p ;;
    if (f : bool) then
      old <- get (mn_v1 s) p ;;
      v1 <- set_ (mn_v1 s) p (addop old x) ;;
      Ok (mkMapN (mn_size s) (mn_keys s) v1 (mn_v2 s))
    else
      v1 <- set_ (mn_v1 s) p x ;;
      v2 <- set_ (mn_v2 s) p true ;;
      Ok (mkMapN (mn_size s) (mn_keys s) v1 v2)
  end.

(** reset: mask_hash.h 230-237 *)
Definition mapS_reset (s : mapS) : mapS := mkMapS (ms_size s) (replicate (length (ms_keys s)) None) (ms_flag s).

(** gather: mask_hash.h 119-136; the list is what is written, in order *)
Definition mapN_gather (s : mapN) : res (mapN * list (nat * V)) :=
  '(keys, l) <- for_ 0 (length (mn_keys s)) (fun j st =>
      let '(keys, l) := st in
      x <- get keys j ;;
      l' <- match x with
            | None => Ok l
            | Some k => f <- get (mn_v2 s) j ;; if (f : bool) then v <- get (mn_v1 s) j ;; Ok (l ++ [(k, v)]) else Ok l
            end ;;
      keys' <- set_ keys j None ;;
      Ok (keys', l')) (mn_keys s, []) ;;
  Ok (mkMapN (mn_size s) keys (mn_v1 s) (mn_v2 s), l).

(** One row of the counting pass, up to the reset: mask_hash_mult.h 84-100, 187-203 *)
Definition mhSym (A B M : csr V) (i : nat) (s : mapS) : res (mapS * nat) :=
  s <- mask_loop M i mapS_insert s ;;
  prod_loop A B i (fun j k s => c <- get (colids B) k ;; mapS_hit c s) (s, 0).

(** One row of the filling pass: mask_hash_mult.h 130-151, 216-237 *)
Definition mhNum (A B M : csr V) (i : nat) (s : mapN) : res (mapN * list (nat * V)) :=
  s <- mask_loop M i mapN_insert s ;;
  s <- prod_loop A B i (fun j k s =>
         c <- get (colids B) k ;; a <- get (values A) j ;; b <- get (values B) k ;; mapN_hit c (multop a b) s) s ;;
  mapN_gather s.

(** The table size of a thread, from its longest mask row: mask_hash_mult.h 69-77, 115-123 *)
Definition mhMaxRow (M : csr V) (off : list nat) (t : nat) : res nat :=
  lo <- get off t ;;
  hi <- get off (t + 1) ;;
  for_ lo hi (fun ra mx => y <- get (rowptr M) (ra + 1) ;; x <- get (rowptr M) ra ;; Ok (Nat.max mx (y - x))) 0.

(** mxm_hash_mask with [nt] threads, the prefix sums run by [nts] threads: mask_hash_mult.h 33-157;
    IMB_PWMIN = 8 (hash_mult_hw.h 18) *)
Definition mxmHashMask_ends (top nts nt : nat) (A B M C : csr V) : Prop :=
  exists b asg,
    set_max_bin_ends W top nts nt 8 (rowptr A) (colids A) (rowptr B) (rows A) (cols B) b /\
    (forall t, t < nt -> exists sz, localSize W (b_nz b) (b_off b) 8 (cols B) t = Ok sz) /\
    chunks (b_off b) nt = Ok asg /\
    twoPass_ends dflt top nts (rows A) (cols B) (replicate (rows A) 0)
      (fun t => mx <- mhMaxRow M (b_off b) t ;; mapS_new (mx + 1))
      (fun i s => '(s, n) <- mhSym A B M i s ;; Ok (mapS_reset s, n)) asg
      (fun t => mx <- mhMaxRow M (b_off b) t ;; mapN_new (mx + 1))
      (fun _ => mhNum A B M) asg C.

(** The table of a single row: mask_hash_mult.h 186, 215 *)
Definition mhRowSize (M : csr V) (i : nat) : res nat :=
  y <- get (rowptr M) (i + 1) ;; x <- get (rowptr M) i ;; Ok (y - x + 1).

(** The bodies of the two row loops: mask_hash_mult.h 185-204, 214-238 *)
Definition wobinSym (A B M : csr V) (i : nat) (_ : unit) : res (unit * nat) :=
  sz <- mhRowSize M i ;; s <- mapS_new sz ;; '(_, n) <- mhSym A B M i s ;; Ok (tt, n).
(** The numeric loop: mask_hash_mult.h 214-238 *)
Definition wobinNum (A B M : csr V) (i : nat) (_ : unit) : res (unit * list (nat * V)) :=
  sz <- mhRowSize M i ;; s <- mapN_new sz ;; '(_, l) <- mhNum A B M i s ;; Ok (tt, l).

(** mxm_hash_mask_wobin, [asg1] and [asg2] being the rows of each thread: mask_hash_mult.h 166-241 *)
Definition mxmHashMaskWobin_ends (top nts : nat) (asg1 asg2 : list (list nat)) (A B M C : csr V) : Prop :=
  twoPass_ends dflt top nts (rows A) (cols B) (replicate (rows A) 0)
    (fun _ => Ok tt) (wobinSym A B M) asg1 (fun _ => Ok tt) (fun _ => wobinNum A B M) asg2 C.
End MaskHash.

(** Every thread stores the number of threads into one shared variable: mask_hash_mult.h 50-54 *)
Definition numThreadsPhase (nt : nat) : list (prog unit nat unit) := replicate nt (Wr tt nt (Ret tt)).
