(** What it means that an object stands for a matrix. *)
From stdpp Require Import gmap.
From Verif Require Import ObjModel.
From Verif Require Import Base Spec.

Section Spec.
Context {V : Type}.
Notation heap := (gmap nat (ablock V)).

(** The block numbers an object answers for. *)
Definition blk (p : ptr) : list nat := match p with PBlk b => [b] | _ => [] end.
Definition owned (o : obj) : list nat :=
  (if 0 <? o_nnz o then blk (o_ci o) ++ blk (o_va o) else []) ++ (if 0 <? o_rows o then blk (o_rp o) else []).

(** [o] stands for the matrix [X] in heap [h]. *)
Record holds (h : heap) (o : obj) (X : csr V) : Prop := {
  h_rows : o_rows o = rows X; h_cols : o_cols o = cols X; h_nnz : o_nnz o = nnz X;
  h_ent : 0 < nnz X -> exists b c, o_ci o = PBlk b /\ o_va o = PBlk c /\ h !! b = Some (BI (colids X)) /\ h !! c = Some (BV (values X));
  h_ptr : 0 < rows X -> exists b, o_rp o = PBlk b /\ h !! b = Some (BI (rowptr X));
  h_sep : NoDup (owned o)
}.
End Spec.
