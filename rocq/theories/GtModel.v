(** Matrices from a graph of the GTgraph library: CSR.h 243-323, CSC.h 151-233, GTgraph/R-MAT/defs.h.

    Simplifications.  Indices are unbounded naturals; the conversion of a weight from long to NT is taken to have been
    done in [g_w].  std::sort is any function with its contract (see the theorems). *)
From Verif Require Export MatModel.
From Verif Require Import Base Spec.

Section Gt.
Context {V : Type} (dflt : V) (add : V -> V -> V).
(** An edge with its weight; std::pair<std::pair<IT, IT>, NT> and Triple<IT, NT>. *)
Notation edge3 := (nat * nat * V)%type.

(** [graph]: GTgraph/R-MAT/defs.h 10-25 *)
Record graph := mkGraph { g_n : nat; g_m : nat; g_start : list nat; g_end : list nat; g_w : list V }.

Context (stdsort : list edge3 -> list edge3).

(** [simpleG.back().val += x]: CSR.h 268, 287; CSC.h 179, 197 *)
Definition addBack (simpleG : list edge3) (x : V) : res (list edge3) :=
  '(r, c, v) <- get simpleG (length simpleG - 1) ;;
  set_ simpleG (length simpleG - 1) (r, c, add v x).

(** One group of edges with the same start is sorted, its parallel edges summed, and appended to [simpleG]:
    CSR.h 263-275, 282-293; CSC.h 174-186, 192-203 *)
Definition mergeGroup (currCol simpleG : list edge3) : res (list edge3) :=
  let currCol := stdsort currCol in
  x <- get currCol 0 ;;
  for_ 0 (length currCol - 1) (fun i simpleG =>
    a <- get currCol i ;;
    b <- get currCol (i + 1) ;;
    if bool_decide (fst a = fst b) then addBack simpleG (snd b) else Ok (simpleG ++ [b])) (simpleG ++ [x]).

(** Edge k: CSR.h 260, 277-278; CSC.h 171, 188-189 *)
Definition edgeAt (G : graph) (k : nat) : res edge3 :=
  s <- get (g_start G) k ;;
  e <- get (g_end G) k ;;
  w <- get (g_w G) k ;;
  Ok (s, e, w).

(** The vector simpleG: CSR.h 258-293; CSC.h 169-203 *)
Definition simpleEdges (G : graph) : res (list edge3) :=
  x <- edgeAt G 0 ;;
  '(simpleG, currCol) <- for_ 0 (g_m G - 1) (fun k '(simpleG, currCol) =>
      a <- get (g_start G) k ;;
      b <- get (g_start G) (k + 1) ;;
      '(simpleG, currCol) <- (if a =? b then Ok (simpleG, currCol)
                              else s <- mergeGroup currCol simpleG ;; Ok (s, [])) ;;
      y <- edgeAt G (k + 1) ;;
      Ok (simpleG, currCol ++ [y])) ([], [x]) ;;
  mergeGroup currCol simpleG.

(** The arrays from simpleG: pointers, ids, values; [key], [id] select row and column (CSR) or column and row (CSC).
    CSR.h 295-322; CSC.h 205-232.  nnz is never 0 here (simpleG holds at least one element). *)
Definition bucketEdges (key id : edge3 -> nat) (simpleG : list edge3) (n : nat) : res (list nat * list nat * list V) :=
  let nz := length simpleG in
  work <- for_ 0 nz (fun k w => t <- get simpleG k ;; bump w (key t)) (replicate n 0) ;;
  '(work, ptr) <- pointers work n ;;
  '(_, ids, vals) <- for_ 0 nz (fun k s => t <- get simpleG k ;; place2 s (key t) (id t) (snd t))
     (work, replicate nz 0, replicate nz dflt) ;;
  Ok (ptr, ids, vals).

(** CSR(graph&): CSR.h 243-323 *)
Definition csrOfGraph (G : graph) : res (csr V) :=
  s <- simpleEdges G ;;
  '(rp, ids, vals) <- bucketEdges (fun t => fst (fst t)) (fun t => snd (fst t)) s (g_n G) ;;
  Ok (mkCsr (g_n G) (g_n G) (length s) rp ids vals).

(** CSC(graph&): CSC.h 151-233 *)
Definition cscOfGraph (G : graph) : res (csc V) :=
  s <- simpleEdges G ;;
  '(cp, ids, vals) <- bucketEdges (fun t => snd (fst t)) (fun t => fst (fst t)) s (g_n G) ;;
  Ok (mkCsc (g_n G) (g_n G) (length s) cp ids vals).
End Gt.
Arguments graph : clear implicits.
