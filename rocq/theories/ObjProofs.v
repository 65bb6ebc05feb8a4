(** Ownership of the arrays of a CSR object. *)
From stdpp Require Import gmap.
From Verif Require Import ObjModel ObjSpec BaseProofs.
From Verif Require Import Base Spec.

Section Frame.
Context {V : Type}.
Notation heap := (gmap nat (ablock V)).
Lemma holds_frame (h h' : heap) o (X : csr V) : holds h o X -> (forall b, b ∈ owned o -> h' !! b = h !! b) -> holds h' o X.
Proof.
  intros H Hf. constructor; try apply H.
  - intros Hn. destruct (h_ent _ _ _ H Hn) as (b & c & Hb & Hc & Hhb & Hhc). exists b, c.
    assert (Hb' : b ∈ owned o /\ c ∈ owned o).
    { unfold owned. rewrite (h_nnz _ _ _ H). destruct (Nat.ltb_spec 0 (nnz X)); [|lia]. rewrite Hb, Hc. simpl. split; [left|right; left]. }
    rewrite !Hf by apply Hb'. auto.
  - intros Hn. destruct (h_ptr _ _ _ H Hn) as (b & Hb & Hhb). exists b.
    assert (Hb' : b ∈ owned o).
    { unfold owned. rewrite (h_rows _ _ _ H). destruct (Nat.ltb_spec 0 (rows X)); [|lia]. rewrite Hb. apply elem_of_app. right. left. }
    rewrite Hf by apply Hb'. auto.
Qed.

Lemma holds_live (h : heap) o (X : csr V) : holds h o X -> forall b, b ∈ owned o -> h !! b <> None.
Proof.
  intros H b Hin. unfold owned in Hin. rewrite (h_nnz _ _ _ H), (h_rows _ _ _ H) in Hin. apply elem_of_app in Hin as [Hin|Hin].
  - destruct (Nat.ltb_spec 0 (nnz X)) as [Hn|]; [|apply elem_of_nil in Hin; destruct Hin].
    destruct (h_ent _ _ _ H Hn) as (b' & c & Hb & Hc & Hhb & Hhc). rewrite Hb, Hc in Hin. simpl in Hin.
    rewrite !elem_of_cons, elem_of_nil in Hin. destruct Hin as [->|[->|[]]]; congruence.
  - destruct (Nat.ltb_spec 0 (rows X)) as [Hn|]; [|apply elem_of_nil in Hin; destruct Hin].
    destruct (h_ptr _ _ _ H Hn) as (b' & Hb & Hhb). rewrite Hb in Hin. simpl in Hin. rewrite elem_of_cons, elem_of_nil in Hin. destruct Hin as [->|[]]; congruence.
Qed.

Lemma copyI_ok (h : heap) s d (l l0 : list nat) n : s <> d -> h !! s = Some (BI l) -> h !! d = Some (BI l0) -> length l = n -> length l0 = n ->
  copyI (PBlk s) n (PBlk d) h = Ok (<[d := BI l]> h).
Proof.
  intros Hne Hs Hd Hl Hl0. unfold copyI.
  destruct (for_inv (fun i h' => h' = <[d := BI (take i l ++ drop i l0)]> h)
    (fun i h => '(_, s) <- blkI (PBlk s) h ;; x <- get s i ;;
    '(b, d) <- blkI (PBlk d) h ;; d' <- set_ d i x ;; Ok (<[b := BI d']> h)) 0 n h) as (r & -> & ->).
  - lia.
  - simpl. rewrite drop_0. symmetry. apply insert_id, Hd.
  - intros i h' Hi ->. destruct (lookup_lt_is_Some_2 l i) as [x Hx]; [lia|].
    unfold blkI. rewrite lookup_insert_ne, Hs, bind_Ok, (get_Some _ _ _ Hx), bind_Ok by congruence. rewrite lookup_insert, bind_Ok.
    rewrite set_Ok by (rewrite app_length, take_length, drop_length; lia). rewrite bind_Ok. eexists. split; [reflexivity|].
    rewrite insert_insert. f_equal. f_equal. rewrite insert_app_r_alt by (rewrite take_length; lia).
    rewrite take_length, Nat.min_l, Nat.sub_diag by lia. destruct (lookup_lt_is_Some_2 l0 i) as [y Hy]; [lia|]. rewrite (drop_S _ _ _ Hy). simpl.
    rewrite Nat.add_1_r, (take_S_r _ _ x) by exact Hx. rewrite <- app_assoc. reflexivity.
  - rewrite take_ge, drop_ge, app_nil_r by lia. reflexivity.
Qed.
Lemma copyV_ok (h : heap) s d (l l0 : list V) n : s <> d -> h !! s = Some (BV l) -> h !! d = Some (BV l0) -> length l = n -> length l0 = n ->
  copyV (PBlk s) n (PBlk d) h = Ok (<[d := BV l]> h).
Proof.
  intros Hne Hs Hd Hl Hl0. unfold copyV.
  destruct (for_inv (fun i h' => h' = <[d := BV (take i l ++ drop i l0)]> h)
    (fun i h => '(_, s) <- blkV (PBlk s) h ;; x <- get s i ;;
    '(b, d) <- blkV (PBlk d) h ;; d' <- set_ d i x ;; Ok (<[b := BV d']> h)) 0 n h) as (r & -> & ->).
  - lia.
  - simpl. rewrite drop_0. symmetry. apply insert_id, Hd.
  - intros i h' Hi ->. destruct (lookup_lt_is_Some_2 l i) as [x Hx]; [lia|].
    unfold blkV. rewrite lookup_insert_ne, Hs, bind_Ok, (get_Some _ _ _ Hx), bind_Ok by congruence. rewrite lookup_insert, bind_Ok.
    rewrite set_Ok by (rewrite app_length, take_length, drop_length; lia). rewrite bind_Ok. eexists. split; [reflexivity|].
    rewrite insert_insert. f_equal. f_equal. rewrite insert_app_r_alt by (rewrite take_length; lia).
    rewrite take_length, Nat.min_l, Nat.sub_diag by lia. destruct (lookup_lt_is_Some_2 l0 i) as [y Hy]; [lia|]. rewrite (drop_S _ _ _ Hy). simpl.
    rewrite Nat.add_1_r, (take_S_r _ _ x) by exact Hx. rewrite <- app_assoc. reflexivity.
  - rewrite take_ge, drop_ge, app_nil_r by lia. reflexivity.
Qed.

Fixpoint deleteAll (bs : list nat) (h : heap) : heap := match bs with [] => h | b :: bs => deleteAll bs (delete b h) end.
Lemma deleteAll_lookup bs : forall h x, deleteAll bs h !! x = if decide (x ∈ bs) then None else h !! x.
Proof.
  induction bs as [|b bs IH]; intros h x; simpl; [reflexivity|]. rewrite IH. destruct (decide (x ∈ bs)) as [Hi|Hi].
  - rewrite decide_True by (right; exact Hi). reflexivity.
  - destruct (decide (x = b)) as [->|Hne].
    + rewrite decide_True by left. apply lookup_delete.
    + rewrite decide_False by (rewrite elem_of_cons; tauto). apply lookup_delete_ne. congruence.
Qed.
Definition freePart (fr : ptr -> heap -> res heap) (d : obj) (h : heap) : res heap :=
  h <- (if 0 <? o_nnz d then h <- fr (o_ci d) h ;; fr (o_va d) h else Ok h) ;;
  (if 0 <? o_rows d then fr (o_rp d) h else Ok h).
Lemma freePart_ok fr (h : heap) d (Y : csr V) : holds h d Y -> (forall b h, fr (PBlk b) h = free_ (PBlk b) h) -> freePart fr d h = Ok (deleteAll (owned d) h).
Proof.
  intros H Hfr. unfold freePart. pose proof (h_sep _ _ _ H) as Hnd. unfold owned in *.
  rewrite (h_nnz _ _ _ H), (h_rows _ _ _ H) in *.
  assert (Hd : forall (h : heap) b v, h !! b = Some v -> free_ (PBlk b) h = Ok (delete b h)) by (intros ? ? ? E; simpl; rewrite E; reflexivity).
  destruct (Nat.ltb_spec 0 (nnz Y)) as [Hn|Hn]; destruct (Nat.ltb_spec 0 (rows Y)) as [Hr|Hr].
  - destruct (h_ent _ _ _ H Hn) as (b & c & Hb & Hc & Hhb & Hhc). destruct (h_ptr _ _ _ H Hr) as (r & Hrp & Hhr).
    rewrite Hb, Hc, Hrp in *. cbn [blk app] in *.
    assert (Hbc : b <> c /\ b <> r /\ c <> r).
    { apply NoDup_cons in Hnd as [N1 Hnd]. apply NoDup_cons in Hnd as [N2 _]. rewrite !not_elem_of_cons in N1. rewrite not_elem_of_cons in N2. tauto. }
    destruct Hbc as (? & ? & ?). rewrite Hfr, (Hd h b _ Hhb), bind_Ok, Hfr. rewrite (Hd _ c (BV (values Y))) by (rewrite lookup_delete_ne; [exact Hhc|congruence]).
    rewrite bind_Ok, Hfr. rewrite (Hd _ r (BI (rowptr Y))) by (rewrite !lookup_delete_ne; [exact Hhr|congruence..]). reflexivity.
  - destruct (h_ent _ _ _ H Hn) as (b & c & Hb & Hc & Hhb & Hhc).
    rewrite Hb, Hc in *. cbn [blk app] in *.
    assert (Hbc : b <> c). { apply NoDup_cons in Hnd as [N1 Hnd]. rewrite not_elem_of_cons in N1. tauto. }
    rewrite Hfr, (Hd h b _ Hhb), bind_Ok, Hfr. rewrite (Hd _ c (BV (values Y))) by (rewrite lookup_delete_ne; [exact Hhc|congruence]). reflexivity.
  - destruct (h_ptr _ _ _ H Hr) as (r & Hrp & Hhr). rewrite bind_Ok, Hrp, Hfr, (Hd h r _ Hhr). reflexivity.
  - reflexivity.
Qed.

Lemma makeEmpty_ok (h : heap) d (Y : csr V) : holds h d Y ->
  makeEmpty d h = Ok (mkObj 0 0 0 (o_rp d) (o_ci d) (o_va d) (o_zb d), deleteAll (owned d) h).
Proof.
  intros H. pose proof (freePart_ok freeIf h d Y H ltac:(reflexivity)) as E. unfold freePart in E. unfold makeEmpty.
  destruct (if 0 <? o_nnz d then _ else _) as [h1|]; [|discriminate]. cbn [bind] in *. rewrite E. reflexivity.
Qed.

End Frame.

Section Obj.
Context {V : Type} (dflt : V) (pick : gmap nat (ablock V) -> nat).
Hypothesis pick_fresh : forall h, h !! pick h = None.
Notation heap := (gmap nat (ablock V)).

(** The two allocation-and-copy steps shared by the copy constructor and the assignment. *)
Definition entPart (o : obj) (va0 ci0 : ptr) (h : heap) : res (ptr * ptr * heap) :=
  if 0 <? o_nnz o then
      let '(va, h) := newV dflt pick (o_nnz o) h in
      let '(ci, h) := newI pick (o_nnz o) h in
      h <- copyV (o_va o) (o_nnz o) va h ;;
      h <- copyI (o_ci o) (o_nnz o) ci h ;;
      Ok (va, ci, h)
    else Ok (va0, ci0, h).
Definition ptrPart (o : obj) (h : heap) : res (ptr * heap) :=
  let '(rp, h) := newI pick (o_rows o + 1) h in
  h <- copyI (o_rp o) (o_rows o + 1) rp h ;;
  Ok (rp, h).

Lemma entPart_ok h o X va0 ci0 : wf X -> holds h o X -> 0 < nnz X ->
  exists c b, h !! c = None /\ h !! b = None /\ c <> b /\
    entPart o va0 ci0 h = Ok (PBlk c, PBlk b, <[b := BI (colids X)]> (<[c := BV (values X)]> h)).
Proof.
  intros Hw H Hn. destruct (h_ent _ _ _ H Hn) as (sb & sc & Hb & Hc & Hhb & Hhc).
  unfold entPart. rewrite (h_nnz _ _ _ H), Hb, Hc. destruct (Nat.ltb_spec 0 (nnz X)); [|lia]. unfold newV, newI.
  set (c := pick h). set (h1 := <[c := BV (replicate (nnz X) dflt)]> h). set (b := pick h1). set (h2 := <[b := BI (replicate (nnz X) 0)]> h1).
  assert (Fc : h !! c = None) by apply pick_fresh. assert (Fb : h1 !! b = None) by apply pick_fresh.
  assert (Hcb : c <> b) by (intros E; unfold h1 in Fb; rewrite <- E, lookup_insert in Fb; discriminate).
  assert (Fb' : h !! b = None) by (unfold h1 in Fb; rewrite lookup_insert_ne in Fb by exact Hcb; exact Fb).
  assert (sc <> c) by congruence. assert (sc <> b) by congruence. assert (sb <> c) by congruence. assert (sb <> b) by congruence.
  exists c, b. split; [exact Fc|]. split; [exact Fb'|]. split; [exact Hcb|].
  rewrite (copyV_ok h2 sc c (values X) (replicate (nnz X) dflt)).
  - rewrite bind_Ok. rewrite (copyI_ok _ sb b (colids X) (replicate (nnz X) 0)).
    + rewrite bind_Ok. f_equal. f_equal. unfold h2. rewrite (insert_commute _ c b) by congruence. rewrite insert_insert. unfold h1. rewrite insert_insert. reflexivity.
    + assumption.
    + unfold h2, h1. rewrite !lookup_insert_ne by congruence. exact Hhb.
    + rewrite lookup_insert_ne by congruence. unfold h2. apply lookup_insert.
    + apply wf_colids, Hw.
    + apply replicate_length.
  - assumption.
  - unfold h2, h1. rewrite !lookup_insert_ne by congruence. exact Hhc.
  - unfold h2, h1. rewrite lookup_insert_ne by congruence. apply lookup_insert.
  - apply wf_values, Hw.
  - apply replicate_length.
Qed.
Lemma ptrPart_ok h o (X : csr V) : wf X -> o_rows o = rows X -> (exists b, o_rp o = PBlk b /\ h !! b = Some (BI (rowptr X))) ->
  exists b, h !! b = None /\ ptrPart o h = Ok (PBlk b, <[b := BI (rowptr X)]> h).
Proof.
  intros Hw Hr (s & Hs & Hhs). unfold ptrPart, newI. rewrite Hr, Hs. set (b := pick h).
  assert (Fb : h !! b = None) by apply pick_fresh. assert (s <> b) by congruence. exists b. split; [exact Fb|].
  rewrite (copyI_ok _ s b (rowptr X) (replicate (rows X + 1) 0)).
  - rewrite bind_Ok, insert_insert. reflexivity.
  - assumption.
  - rewrite lookup_insert_ne by congruence. exact Hhs.
  - apply lookup_insert.
  - rewrite (wf_len X Hw). lia.
  - apply replicate_length.
Qed.

Lemma owned_eq o : owned o = (if 0 <? o_nnz o then blk (o_ci o) ++ blk (o_va o) else []) ++ (if 0 <? o_rows o then blk (o_rp o) else []).
Proof. reflexivity. Qed.

(** What both produce: a new object on blocks that were free in [h]. *)
Definition news (h h' : heap) (o o' : obj) (X : csr V) : Prop :=
  holds h' o' X /\ o_zb o' = o_zb o /\ (forall b, b ∈ owned o' -> h !! b = None) /\ (forall b, b ∉ owned o' -> h' !! b = h !! b).

Lemma build_ok h o X va0 ci0 rp0 zb (doPtr : bool) : wf X -> holds h o X -> zb = o_zb o -> (doPtr = true <-> 0 < rows X) ->
  exists o' h', ('(va, ci, h1) <- entPart o va0 ci0 h ;;
    '(rp, h2) <- (if doPtr then ptrPart o h1 else Ok (rp0, h1)) ;;
    Ok (mkObj (o_rows o) (o_cols o) (o_nnz o) rp ci va zb, h2)) = Ok (o', h') /\ news h h' o o' X.
Proof.
  intros Hw H -> Hd.
  assert (He : exists va ci h1, entPart o va0 ci0 h = Ok (va, ci, h1) /\
     (0 < nnz X -> exists c b, va = PBlk c /\ ci = PBlk b /\ h !! c = None /\ h !! b = None /\ c <> b /\ h1 = <[b := BI (colids X)]> (<[c := BV (values X)]> h)) /\
     (nnz X = 0 -> h1 = h)).
  { destruct (decide (0 < nnz X)) as [Hn|Hn].
    - destruct (entPart_ok h o X va0 ci0 Hw H Hn) as (c & b & Fc & Fb & Hcb & ->). do 3 eexists. split; [reflexivity|]. split; [|lia].
      intros _. exists c, b. auto 10.
    - unfold entPart. rewrite (h_nnz _ _ _ H). destruct (Nat.ltb_spec 0 (nnz X)); [lia|]. do 3 eexists. split; [reflexivity|]. split; [lia|reflexivity]. }
  destruct He as (va & ci & h1 & -> & He1 & He0). rewrite bind_Ok.
  assert (Hh1 : forall x, h !! x <> None -> h1 !! x = h !! x).
  { intros x Hx. destruct (decide (0 < nnz X)) as [Hn|Hn]; [|rewrite He0 by lia; reflexivity].
    destruct (He1 Hn) as (c & b & -> & -> & Fc & Fb & Hcb & ->). rewrite !lookup_insert_ne by congruence. reflexivity. }
  destruct (decide (0 < rows X)) as [Hr|Hr].
  - assert (doPtr = true) as -> by tauto. destruct (h_ptr _ _ _ H Hr) as (s & Hs & Hhs).
    destruct (ptrPart_ok h1 o X Hw (h_rows _ _ _ H)) as (b2 & Fb2 & ->).
    { exists s. split; [exact Hs|]. rewrite Hh1; [exact Hhs|congruence]. }
    rewrite bind_Ok. do 2 eexists. split; [reflexivity|]. unfold news.
    assert (Fb2' : h !! b2 = None).
    { destruct (h !! b2) eqn:E; [|reflexivity]. rewrite Hh1 in Fb2 by congruence. congruence. }
    assert (Hown : owned (mkObj (o_rows o) (o_cols o) (o_nnz o) (PBlk b2) ci va (o_zb o)) = (if 0 <? nnz X then blk ci ++ blk va else []) ++ [b2]).
    { unfold owned. cbn [o_nnz o_rows o_ci o_va o_rp]. rewrite (h_nnz _ _ _ H), (h_rows _ _ _ H). destruct (Nat.ltb_spec 0 (rows X)); [|lia]. reflexivity. }
    rewrite Hown. destruct (decide (0 < nnz X)) as [Hn|Hn].
    + destruct (He1 Hn) as (c & b & -> & -> & Fc & Fb & Hcb & ->). destruct (Nat.ltb_spec 0 (nnz X)); [|lia]. cbn [blk app] in *.
      assert (b2 <> b) by (intros ->; rewrite lookup_insert in Fb2; discriminate).
      assert (b2 <> c) by (intros ->; rewrite lookup_insert_ne, lookup_insert in Fb2 by congruence; discriminate).
      assert (HNoDup : NoDup [b; c; b2]) by (repeat constructor; rewrite ?elem_of_cons, ?elem_of_nil; intuition congruence).
      split; [|split; [reflexivity|split]].
      * constructor; cbn [o_nnz o_rows o_ci o_va o_rp o_cols]; try apply H.
        -- intros _. exists b, c. split; [reflexivity|]. split; [reflexivity|]. rewrite lookup_insert_ne, lookup_insert, lookup_insert_ne by congruence.
           rewrite lookup_insert_ne, lookup_insert by congruence. auto.
        -- intros _. exists b2. split; [reflexivity|apply lookup_insert].
        -- rewrite Hown. exact HNoDup.
      * intros x Hx. rewrite !elem_of_cons, elem_of_nil in Hx. destruct Hx as [->|[->|[->|[]]]]; assumption.
      * intros x Hx. rewrite !not_elem_of_cons in Hx. rewrite !lookup_insert_ne by intuition congruence. reflexivity.
    + rewrite He0 in * by lia. destruct (Nat.ltb_spec 0 (nnz X)); [lia|]. cbn [app] in *.
      split; [|split; [reflexivity|split]].
      * constructor; cbn [o_nnz o_rows o_ci o_va o_rp o_cols]; try apply H.
        -- intros; lia.
        -- intros _. exists b2. split; [reflexivity|apply lookup_insert].
        -- rewrite Hown. apply NoDup_singleton.
      * intros x Hx. rewrite elem_of_cons, elem_of_nil in Hx. destruct Hx as [->|[]]; assumption.
      * intros x Hx. rewrite !not_elem_of_cons in Hx. rewrite lookup_insert_ne by intuition congruence. reflexivity.
  - assert (doPtr = false) as -> by (destruct doPtr; [exfalso; tauto|reflexivity]). rewrite bind_Ok. do 2 eexists. split; [reflexivity|]. unfold news.
    assert (Hown : owned (mkObj (o_rows o) (o_cols o) (o_nnz o) rp0 ci va (o_zb o)) = if 0 <? nnz X then blk ci ++ blk va else []).
    { unfold owned. cbn [o_nnz o_rows o_ci o_va o_rp]. rewrite (h_nnz _ _ _ H), (h_rows _ _ _ H). destruct (Nat.ltb_spec 0 (rows X)); [lia|]. apply app_nil_r. }
    assert (Hn : nnz X = 0).
    { assert (rows X = 0) as R by lia. pose proof (wf_last X Hw) as L. pose proof (wf_first X Hw) as F. rewrite R in L. simpl in L. congruence. }
    rewrite Hown. destruct (Nat.ltb_spec 0 (nnz X)); [lia|].
    split; [|split; [reflexivity|split]].
    + constructor; cbn [o_nnz o_rows o_ci o_va o_rp o_cols]; try apply H; try (intros; lia). rewrite Hown. destruct (Nat.ltb_spec 0 (nnz X)); [lia|]. constructor.
    + intros x Hx. apply elem_of_nil in Hx. destruct Hx.
    + intros x _. rewrite He0 by exact Hn. reflexivity.
Qed.

Lemma copyCtor_ok h o X : wf X -> holds h o X -> exists o' h', copyCtor dflt pick o h = Ok (o', h') /\ news h h' o o' X.
Proof.
  intros Hw H. destruct (build_ok h o X PUninit PUninit PUninit (o_zb o) (0 <? o_rows o) Hw H eq_refl) as (o' & h' & E & Hn).
  - rewrite (h_rows _ _ _ H). apply Nat.ltb_lt.
  - exists o', h'. split; [exact E|exact Hn].
Qed.

Lemma assign_ok h d o X Y : wf X -> holds h o X -> holds h d Y -> (forall b, b ∈ owned o -> b ∉ owned d) -> (0 < rows X <-> 0 < cols X) ->
  exists d' h', assign dflt pick false d o h = Ok (d', h') /\ news (deleteAll (owned d) h) h' o d' X.
Proof.
  intros Hw Ho Hd Hdis Hrc. pose proof (freePart_ok free_ h d Y Hd ltac:(reflexivity)) as E.
  assert (Ho1 : holds (deleteAll (owned d) h) o X).
  { eapply holds_frame; [exact Ho|]. intros b Hb. rewrite deleteAll_lookup, decide_False by (apply Hdis, Hb). reflexivity. }
  destruct (build_ok (deleteAll (owned d) h) o X (o_va d) (o_ci d) (o_rp d) (o_zb o) (0 <? o_cols o) Hw Ho1 eq_refl) as (d' & h' & E' & Hn).
  { rewrite (h_cols _ _ _ Ho), Nat.ltb_lt. tauto. }
  exists d', h'. split; [|exact Hn]. unfold freePart in E. unfold assign.
  destruct (if 0 <? o_nnz d then _ else _) as [h1|] eqn:E1; [|discriminate]. cbn [bind] in *. rewrite E. cbn [bind]. exact E'.
Qed.
End Obj.
