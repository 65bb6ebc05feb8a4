(** Triangles of the graph of a matrix, over its list of entries (row, column, value). *)
From Coq Require Import ZArith Ascii String.
From stdpp Require Import strings list.
From Verif Require Import IoSpec MainSpec TriAllSpec.
From Verif Require Import Base Spec.
Local Open Scope nat_scope.

(** Two vertices are joined if there is an entry between them in either direction. *)
Definition linked (E : list (nat * nat * Z)) (i j : nat) : Prop := i <> j /\ ((i, j) ∈ epos <$> E \/ (j, i) ∈ epos <$> E).
(** [ts] lists the triangles, each once. *)
Definition file_triangles (E : list (nat * nat * Z)) (ts : list (nat * nat * nat)) : Prop :=
  NoDup ts /\ forall a b c, (a, b, c) ∈ ts <-> a < b /\ b < c /\ linked E a b /\ linked E b c /\ linked E a c.
(** Entries in row i. *)
Definition degree (E : list (nat * nat * Z)) (i : nat) : nat := length (filter (fun e => fst (epos e) = i) E).
(** [p 0], [p 1], ... are the vertices in the order of their degrees, the largest first, the largest vertex first among
    equals. *)
Definition by_degree (E : list (nat * nat * Z)) (n : nat) (p : nat -> nat) : Prop :=
  permutes n p /\ forall i j, i < j < n -> degree E (p j) < degree E (p i) \/ (degree E (p j) = degree E (p i) /\ p j < p i).
(** [es] lists the edges (a, c) of the triangles in which [p] puts the third vertex between a and c, each once. *)
Definition closing_edges (E : list (nat * nat * Z)) (p : nat -> nat) (es : list (nat * nat)) : Prop :=
  NoDup es /\ forall a c, (a, c) ∈ es <-> linked E a c /\ exists b, linked E a b /\ linked E b c /\ p c < p b < p a.

(** The labels of the lines of TriCntAll, in order, for the modes it knows besides all1p.  (That the first has lost its
    last character is a finding of C57.) *)
Definition tri_inner : list text := txt <$> ["innerSpGEMM_nohash<false,false"; "MaskedSpGEMM1pInnerProduct"; "MaskedSpGEMM2pInnerProduct"; "MaskedInner-1P"; "MaskedInner-2P"]%string.
Definition tri_msa : list text := txt <$>
  ["MaskedSPASpGEMM"; "MSA2A_old-1P"; "MSA2A_old-2P"; "MSA2A<false,false>-1P"; "MSA2A<false,false>-2P"; "MSA1A_old-1P"; "MSA1A_old-2P"; "MSA1A<false,false>-1P"; "MSA1A<false,false>-2P"]%string.
Definition tri_hash : list text := txt <$> ["mxm_hash_mask_wobin"; "mxm_hash_mask"; "MaskedHash<false,false>-1P"; "MaskedHash<false,false>-2P"]%string.
Definition tri_heap : list text := txt <$>
  ["MaskedHeap_v0-1P"; "MaskedHeap_v0-2P"; "MaskedHeap<false,true,0>-1P"; "MaskedHeap<false,true,0>-2P"; "MaskedHeap_v1-1P"; "MaskedHeap_v1-2P"; "MaskedHeap<false,true,1>-1P";
   "MaskedHeap<false,true,1>-2P"; "MaskedHeap<false,true,8>-1P"; "MaskedHeap<false,true,8>-2P"; "MaskedHeap<false,true,64>-1P"; "MaskedHeap<false,true,64>-2P";
   "MaskedHeap<false,true,512>-1P"; "MaskedHeap<false,true,512>-2P"; "MaskedHeap_v2-1P"; "MaskedHeap_v2-2P"; "MaskedHeap<false,true,MaskedHeapDot>-1P"; "MaskedHeap<false,true,MaskedHeapDot>-2P"]%string.
Definition tri_isect : list text := txt <$> ["HashIntersect"]%string.
Definition tri_all2p : list text := txt <$>
  ["MaskedInner-2P"; "MaskedHeap<false,true,1>-2P"; "MaskedHeap<false,true,MaskedHeapDot>-2P"; "MaskedHash<false,false>-2P"; "MSA1A<false,false>-2P"; "MSA2A<false,false>-2P"; "MCA<false,false>-2P"]%string.
Definition tri_all1p : list text := txt <$>
  ["MaskedInner-1P"; "MaskedHeap<false,true,1>-1P"; "MaskedHeap<false,true,MaskedHeapDot>-1P"; "MaskedHash<false,false>-1P"; "MSA1A<false,false>-1P"; "MSA2A<false,false>-1P"; "MCA<false,false>-1P"; "MaskedSpGEMM1p"]%string.
Definition tri_modes : list (text * list text) :=
  [(txt "inner", tri_inner); (txt "dot", tri_inner); (txt "msa", tri_msa); (txt "hash", tri_hash); (txt "heap", tri_heap); (txt "intersect", tri_isect);
   (txt "all", tri_inner ++ tri_msa ++ tri_hash ++ tri_heap ++ tri_isect); (txt "all2p", tri_all2p)].
