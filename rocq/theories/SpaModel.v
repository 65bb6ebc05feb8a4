(** MaskedSPASpGEMM (spa_mult.h) with the accumulators of SPA.h.

    Simplifications.  As in BinModel.v and TwoPassModel.v.  The assignments to the fields of C come first in
    the code; C is returned as a fresh matrix here (its old arrays are not freed by the code either).
    All threads asked for with num_threads are taken to exist. *)
From Verif Require Import Base Spec KernelBase.
From Verif Require Export BinModel TwoPassModel.
From Verif Require Import Spec.

Section Spa.
Context {V : Type} (dflt : V) (multop addop : V -> V -> V).

(** SPAStructure: SPA.h 120-122 *)
Record spaS := mkSpaS { ss_committed : nat; ss_flags : list nat; ss_possible : list nat }.
(** SPA: SPA.h 71-74 *)
Record spa := mkSpa { sp_values : list V; sp_flags : list nat; sp_present : list nat; sp_possible : list nat }.

(** Constructors: SPA.h 82-85, 17-21 *)
Definition spaS_new (range : nat) : spaS := mkSpaS 0 (replicate range 0) [].
(** SPA: SPA.h 17-21 *)
Definition spa_new (range : nat) : spa := mkSpa (replicate range dflt) (replicate range 0) [] [].

(** One step of Initialize: SPA.h 92-94, 28-30 *)
Definition spaS_allow (c : nat) (s : spaS) : res spaS :=
  fl <- set_ (ss_flags s) c 1 ;; Ok (mkSpaS (ss_committed s) fl (ss_possible s ++ [c])).
(** SPA: SPA.h 28-30 *)
Definition spa_allow (c : nat) (s : spa) : res spa :=
  fl <- set_ (sp_flags s) c 1 ;; Ok (mkSpa (sp_values s) fl (sp_present s) (sp_possible s ++ [c])).

(** Insert: SPA.h 97-104 *)
Definition spaS_insert (c : nat) (s : spaS) : res spaS :=
  f <- get (ss_flags s) c ;;
  if f =? 1 then fl <- set_ (ss_flags s) c 2 ;; Ok (mkSpaS (ss_committed s + 1) fl (ss_possible s))
  else Ok s.

(** Insert: SPA.h 34-46; note the order of the operands of addop *)
Definition spa_insert (c : nat) (v : V) (s : spa) : res spa :=
  f <- get (sp_flags s) c ;;
  if f =? 1 then
    vs <- set_ (sp_values s) c v ;;
    fl <- set_ (sp_flags s) c 2 ;;
    Ok (mkSpa vs fl (sp_present s ++ [c]) (sp_possible s))
  else if f =? 2 then
    old <- get (sp_values s) c ;;
    vs <- set_ (sp_values s) c (addop v old) ;;
    Ok (mkSpa vs (sp_flags s) (sp_present s) (sp_possible s))
  else Ok s.

(** Reset: SPA.h 110-118 *)
Definition spaS_reset (s : spaS) : res spaS :=
  fl <- foldM (fun fl c => set_ fl c 0) (ss_possible s) (ss_flags s) ;;
  Ok (mkSpaS 0 fl []).

(** OutputReset: SPA.h 53-69; the list is what is written, in order *)
Definition spa_outputReset (s : spa) : res (spa * list (nat * V)) :=
  l <- foldM (fun l c => v <- get (sp_values s) c ;; Ok (l ++ [(c, v)])) (sp_present s) [] ;;
  fl <- foldM (fun fl c => set_ fl c 0) (sp_possible s) (sp_flags s) ;;
  Ok (mkSpa (sp_values s) fl [] [], l).

(** One row of the counting pass: spa_mult.h 43-53 *)
Definition spaSym (A B M : csr V) (i : nat) (s : spaS) : res (spaS * nat) :=
  s <- mask_loop M i spaS_allow s ;;
  s <- prod_loop A B i (fun j k s => c <- get (colids B) k ;; spaS_insert c s) s ;;
  let n := ss_committed s in
  s <- spaS_reset s ;;
  Ok (s, n).

(** One row of the filling pass: spa_mult.h 78-88 *)
Definition spaNum (A B M : csr V) (i : nat) (s : spa) : res (spa * list (nat * V)) :=
  s <- mask_loop M i spa_allow s ;;
  s <- prod_loop A B i (fun j k s =>
         a <- get (values A) j ;; b <- get (values B) k ;; c <- get (colids B) k ;; spa_insert c (multop a b) s) s ;;
  spa_outputReset s.

(** MaskedSPASpGEMM with [nt] = threadCount threads, the prefix sums run by [nts] threads: spa_mult.h 11-91;
    IMB_PWMIN = 8 (hash_mult_hw.h 18) *)
Definition spaSpGEMM_ends (W top nts nt : nat) (A B M C : csr V) : Prop :=
  exists b asg,
    set_max_bin_ends W top nts nt 8 (rowptr A) (colids A) (rowptr B) (rows A) (cols B) b /\
    chunks (b_off b) nt = Ok asg /\
    twoPass_ends dflt top nts (rows A) (cols B) (replicate (rows A) 0)
      (fun _ => Ok (spaS_new (cols B))) (spaSym A B M) asg
      (fun _ => Ok (spa_new (cols B))) (fun _ => spaNum A B M) asg C.
End Spa.
Arguments spa : clear implicits.
