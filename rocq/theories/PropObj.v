(** C34: copies of a CSR matrix are deep; assignment.  [holds h o X]: in heap [h] the object [o]
    stands for the matrix [X]; [owned o]: the arrays it answers for (ObjSpec).  [pick] is the
    allocator: any function that returns a block number not in use. *)
From stdpp Require Import gmap.
From Verif Require Import ObjModel ObjSpec ObjProofs Examples.
From Verif Require Import Base Spec.

(** C34, copy constructor: it ends without a fault in an equal matrix on new arrays; nothing else in
    the heap changes; and whatever is done afterwards to the arrays of one of the two objects
    (stores, frees), the other still stands for the same matrix. *)
Theorem C34_copy_is_deep :
  forall V (dflt : V) (pick : gmap nat (ablock V) -> nat), (forall h, h !! pick h = None) ->
  forall h o (X : csr V), wf X -> holds h o X ->
  exists o' h', copyCtor dflt pick o h = Ok (o', h') /\
    holds h' o' X /\ holds h' o X /\ o_zb o' = o_zb o /\
    (forall b, b ∈ owned o' -> h !! b = None) /\ (forall b, b ∉ owned o' -> h' !! b = h !! b) /\
    (forall h'', (forall b, b ∉ owned o' -> h'' !! b = h' !! b) -> holds h'' o X) /\
    (forall h'', (forall b, b ∉ owned o -> h'' !! b = h' !! b) -> holds h'' o' X).
Proof.
  intros V dflt pick Hp h o X Hw H. destruct (copyCtor_ok dflt pick Hp h o X Hw H) as (o' & h' & E & H1 & H2 & H3 & H4).
  exists o', h'. split; [exact E|]. split; [exact H1|].
  assert (Hdis : forall b, b ∈ owned o -> b ∉ owned o').
  { intros b Hb Hb'. apply (holds_live h o X H b Hb), H3, Hb'. }
  assert (Ho : holds h' o X) by (eapply holds_frame; [exact H|]; intros b Hb; apply H4, Hdis, Hb).
  split; [exact Ho|]. split; [exact H2|]. split; [exact H3|]. split; [exact H4|]. split; intros h'' Hf.
  - eapply holds_frame; [exact Ho|]. intros b Hb. apply Hf, Hdis, Hb.
  - eapply holds_frame; [exact H1|]. intros b Hb. apply Hf. intros Hb'. exact (Hdis b Hb' Hb).
Qed.
Print Assumptions C34_copy_is_deep.

(** C34, assignment between two objects without common arrays, for a right-hand side that has rows if
    and only if it has columns: the old arrays are released, exactly once and nothing leaks; the
    result is an equal matrix on its own arrays; and self-assignment does nothing. *)
Theorem C34_assign_is_deep_partial :
  forall V (dflt : V) (pick : gmap nat (ablock V) -> nat), (forall h, h !! pick h = None) ->
  forall h d o (X Y : csr V), wf X -> holds h o X -> holds h d Y -> (forall b, b ∈ owned o -> b ∉ owned d) ->
  (0 < rows X <-> 0 < cols X) ->
  (exists d' h', assign dflt pick false d o h = Ok (d', h') /\
    holds h' d' X /\ holds h' o X /\ o_zb d' = o_zb o /\
    (forall b, b ∉ owned d' -> h' !! b = if decide (b ∈ owned d) then None else h !! b) /\
    (forall h'', (forall b, b ∉ owned d' -> h'' !! b = h' !! b) -> holds h'' o X) /\
    (forall h'', (forall b, b ∉ owned o -> h'' !! b = h' !! b) -> holds h'' d' X)) /\
  assign dflt pick true d d h = Ok (d, h).
Proof.
  intros V dflt pick Hp h d o X Y Hw Ho Hd Hdis Hrc. split; [|reflexivity].
  destruct (assign_ok dflt pick Hp h d o X Y Hw Ho Hd Hdis Hrc) as (d' & h' & E & H1 & H2 & H3 & H4).
  exists d', h'. split; [exact E|]. split; [exact H1|].
  assert (Hdis' : forall b, b ∈ owned o -> b ∉ owned d').
  { intros b Hb Hb'. specialize (H3 b Hb'). rewrite deleteAll_lookup, decide_False in H3 by (apply Hdis, Hb). exact (holds_live h o X Ho b Hb H3). }
  assert (Ho' : holds h' o X).
  { eapply holds_frame; [exact Ho|]. intros b Hb. rewrite H4 by (apply Hdis', Hb). rewrite deleteAll_lookup, decide_False by (apply Hdis, Hb). reflexivity. }
  split; [exact Ho'|]. split; [exact H2|]. split; [|split; intros h'' Hf].
  - intros b Hb. rewrite H4 by exact Hb. apply deleteAll_lookup.
  - eapply holds_frame; [exact Ho'|]. intros b Hb. apply Hf, Hdis', Hb.
  - eapply holds_frame; [exact H1|]. intros b Hb. apply Hf. intros Hb'. exact (Hdis' b Hb' Hb).
Qed.
Print Assumptions C34_assign_is_deep_partial.

(** C34, destructor and make_empty: they release exactly the arrays the object owns; a second call
    does nothing. *)
Theorem C34_release :
  forall V h d (Y : csr V), holds h d Y ->
  exists d' h', makeEmpty d h = Ok (d', h') /\ (forall b, h' !! b = if decide (b ∈ owned d) then None else h !! b) /\
    o_rows d' = 0 /\ o_cols d' = 0 /\ o_nnz d' = 0 /\ makeEmpty d' h' = Ok (d', h').
Proof.
  intros V h d Y H. eexists _, _. split; [eapply makeEmpty_ok, H|]. split; [intros; apply deleteAll_lookup|]. auto.
Qed.
Print Assumptions C34_release.

Definition exH : gmap nat (ablock Z) := <[0 := BI (rowptr exA)]> (<[1 := BI (colids exA)]> (<[2 := BV (values exA)]> (<[3 := BI (rowptr exB)]> (<[4 := BI (colids exB)]> (<[5 := BV (values exB)]> ∅))))).
Definition exOA : obj := mkObj 3 3 4 (PBlk 0) (PBlk 1) (PBlk 2) true.
Definition exOB : obj := mkObj 3 4 6 (PBlk 3) (PBlk 4) (PBlk 5) true.
Example C34_example : holds exH exOA exA /\ holds exH exOB exB /\ (forall b, b ∈ owned exOA -> b ∉ owned exOB) /\
  (forall h : gmap nat (ablock Z), h !! fresh (dom h : gset nat) = None) /\ (0 < rows exA <-> 0 < cols exA).
Proof.
  split; [|split; [|split; [|split]]].
  - constructor; try reflexivity; [intros _; exists 1, 2|intros _; exists 0|]; repeat split; repeat constructor; set_solver.
  - constructor; try reflexivity; [intros _; exists 4, 5|intros _; exists 3|]; repeat split; repeat constructor; set_solver.
  - intros b H1 H2. cbn in H1, H2. rewrite !elem_of_cons, elem_of_nil in H1, H2. lia.
  - intros h. apply not_elem_of_dom. apply is_fresh.
  - cbn. lia.
Qed.

(** Finding: assignment looks at rhs.cols where it should look at rhs.rows.
    (1) A right-hand side with rows but no columns: the target keeps its released row pointers, and
    its destructor releases them again (or, if it had none, releases an unset pointer). *)
Theorem C34_assign_no_columns_refuted :
  forall V (dflt : V) (pick : gmap nat (ablock V) -> nat),
  forall h d o (X Y : csr V), wf X -> holds h o X -> holds h d Y -> 0 < rows X -> cols X = 0 ->
  exists d' h', assign dflt pick false d o h = Ok (d', h') /\ 0 < o_rows d' /\
    (0 < rows Y -> makeEmpty d' h' = Err UseAfterFree) /\
    (rows Y = 0 -> o_rp d = PUninit -> makeEmpty d' h' = Err Uninit).
Proof.
  intros V dflt pick h d o X Y Hw Ho Hd Hr Hc.
  assert (Hn : nnz X = 0).
  { destruct (nnz X) as [|n] eqn:E; [reflexivity|]. destruct (lookup_lt_is_Some_2 (colids X) 0) as [c Hc0]; [rewrite (wf_colids X Hw); lia|].
    pose proof (wf_range X Hw _ _ Hc0). lia. }
  pose proof (freePart_ok free_ h d Y Hd ltac:(reflexivity)) as E. unfold freePart in E. unfold assign.
  destruct (if 0 <? o_nnz d then _ else _) as [h1|] eqn:E1; [|discriminate]. cbn [bind] in *. rewrite E. cbn [bind].
  rewrite (h_nnz _ _ _ Ho), (h_cols _ _ _ Ho), (h_rows _ _ _ Ho), Hn, Hc. cbn [Nat.ltb Nat.leb bind].
  eexists _, _. split; [reflexivity|]. split; [exact Hr|]. unfold makeEmpty. cbn [o_nnz o_rows o_rp Nat.ltb Nat.leb bind].
  destruct (rows X) as [|rX]; [lia|]. split.
  - intros HrY. destruct (h_ptr _ _ _ Hd HrY) as (b & Hb & _). rewrite Hb. unfold freeIf, notNull. cbn [bind free_]. rewrite deleteAll_lookup, decide_True; [reflexivity|].
    unfold owned. rewrite (h_rows _ _ _ Hd). destruct (Nat.ltb_spec 0 (rows Y)); [|lia]. rewrite Hb. apply elem_of_app. right. left.
  - intros _ ->. reflexivity.
Qed.
Print Assumptions C34_assign_no_columns_refuted.

(** (2) A right-hand side with columns but no rows, for instance one made by the copy constructor:
    the assignment reads through its unset row pointer. *)
Theorem C34_assign_no_rows_refuted :
  forall V (dflt : V) (pick : gmap nat (ablock V) -> nat), (forall h, h !! pick h = None) ->
  forall h d o (X Y : csr V), wf X -> holds h o X -> holds h d Y -> rows X = 0 -> 0 < cols X ->
  exists o' h', copyCtor dflt pick o h = Ok (o', h') /\ assign dflt pick false d o' h' = Err Uninit.
Proof.
  intros V dflt pick Hp h d o X Y Hw Ho Hd Hr Hc.
  assert (Hn : nnz X = 0) by (pose proof (wf_last X Hw) as L; pose proof (wf_first X Hw) as F; rewrite Hr in L; congruence).
  unfold copyCtor. rewrite (h_nnz _ _ _ Ho), (h_rows _ _ _ Ho), Hn, Hr. cbn [Nat.ltb Nat.leb bind].
  eexists _, _. split; [reflexivity|].
  pose proof (freePart_ok free_ h d Y Hd ltac:(reflexivity)) as E. unfold freePart in E. unfold assign.
  destruct (if 0 <? o_nnz d then _ else _) as [h1|] eqn:E1; [|discriminate]. cbn [bind] in *. rewrite E. cbn [bind].
  cbn [o_nnz o_cols o_rows o_rp Nat.ltb Nat.leb bind]. rewrite (h_cols _ _ _ Ho).
  change (match cols X with 0 => false | S _ => true end) with (0 <? cols X). destruct (Nat.ltb_spec 0 (cols X)); [|lia]. reflexivity.
Qed.
Print Assumptions C34_assign_no_rows_refuted.

(** Both happen: a 2 x 0 and a 0 x 2 matrix. *)
Example C34_refuted_example :
  let X := mkCsr 2 0 0 [0;0;0] [] ([] : list Z) in let X' := mkCsr 0 2 0 [0] [] ([] : list Z) in
  let h := <[9 := BI [0;0;0]]> exH in
  wf X /\ holds h (mkObj 2 0 0 (PBlk 9) PUninit PUninit true) X /\ wf X' /\ holds h (mkObj 0 2 0 PUninit PUninit PUninit true) X' /\ holds h exOA exA.
Proof.
  cbn zeta. split; [prove_wf|]. split; [|split; [prove_wf|split]].
  - constructor; try reflexivity; cbn; try lia; [intros _; exists 9; split; reflexivity|repeat constructor; set_solver].
  - constructor; try reflexivity; cbn; try lia; constructor.
  - constructor; try reflexivity; [intros _; exists 1, 2|intros _; exists 0|]; repeat split; repeat constructor; set_solver.
Qed.
