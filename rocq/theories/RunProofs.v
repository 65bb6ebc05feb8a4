(** The measuring loop: what the output object owns. *)
From Coq Require Import NArith.
From stdpp Require Import numbers list_numbers gmap.
From Verif Require Import BaseProofs IndexModel ReportModel PropReport ObjModel ObjSpec ObjProofs RunModel RunSpec.
From Verif Require Import Base Spec.

Section Run.
Context {V S : Type} (dflt : V) (pick : gmap nat (ablock V) -> nat) (null0 : bool).
Hypothesis pick_fresh : forall h, h !! pick h = None.
Notation heap := (gmap nat (ablock V)).

(** [h0]: what was there before; [n] blocks are lost; [os] blocks are owned by the objects in view. *)
Record Inv (h0 : heap) (n : nat) (os : list nat) (h : heap) : Prop := {
  i_sub : h0 ⊆ h; i_size : size h = size h0 + n + length os; i_nodup : NoDup os;
  i_new : forall b, b ∈ os -> h0 !! b = None /\ is_Some (h !! b) }.

Lemma inv_start h : Inv h 0 [] h.
Proof. constructor; [reflexivity|simpl; lia|constructor|]. intros b Hb. apply elem_of_nil in Hb as []. Qed.
Lemma inv_perm h0 n os os' h : Inv h0 n os h -> os ≡ₚ os' -> Inv h0 n os' h.
Proof.
  intros [H1 H2 H3 H4] Hp. constructor; [exact H1|rewrite <- Hp; exact H2|rewrite <- Hp; exact H3|]. intros b. rewrite <- Hp. apply H4.
Qed.
Lemma inv_lose h0 n l os h : Inv h0 n (l ++ os) h -> Inv h0 (n + length l) os h.
Proof.
  intros [H1 H2 H3 H4]. constructor; [exact H1|rewrite H2, app_length; lia|apply NoDup_app in H3; tauto|].
  intros b Hb. apply H4. apply elem_of_app. right. exact Hb.
Qed.
Lemma inv_alloc h0 n os h x : Inv h0 n os h -> Inv h0 n (pick h :: os) (<[pick h := x]> h).
Proof.
  intros [H1 H2 H3 H4]. pose proof (pick_fresh h) as Hf.
  assert (H0 : h0 !! pick h = None) by (eapply lookup_weaken_None; [exact Hf|exact H1]).
  constructor.
  - apply insert_subseteq_r; [exact H0|exact H1].
  - rewrite map_size_insert_None by exact Hf. simpl. lia.
  - constructor; [|exact H3]. intros Hin. destruct (H4 _ Hin) as [_ [y Hy]]. congruence.
  - intros b Hb. apply elem_of_cons in Hb as [->|Hb].
    + split; [exact H0|rewrite lookup_insert; eauto].
    + destruct (H4 b Hb) as [K1 K2]. split; [exact K1|]. apply lookup_insert_is_Some. destruct (decide (pick h = b)); auto.
Qed.
Lemma inv_delete h0 n b os h : Inv h0 n (b :: os) h -> Inv h0 n os (delete b h).
Proof.
  intros [H1 H2 H3 H4]. apply NoDup_cons in H3 as [Hn H3]. destruct (H4 b ltac:(left)) as [K1 K2].
  constructor.
  - apply map_subseteq_spec. intros i x Hx. rewrite lookup_delete_ne by (intros ->; congruence). eapply lookup_weaken; eauto.
  - destruct K2 as [x Hx]. rewrite map_size_delete, Hx. simpl in H2. simpl. lia.
  - exact H3.
  - intros c Hc. assert (b <> c) by (intros ->; contradiction). rewrite lookup_delete_ne by assumption. apply H4. right. exact Hc.
Qed.
Lemma inv_deleteAll h0 n bs : forall os h, Inv h0 n (bs ++ os) h -> Inv h0 n os (deleteAll bs h).
Proof. induction bs as [|b bs IH]; intros os h H; [exact H|]. cbn [deleteAll]. apply IH. apply inv_delete, H. Qed.

(** ** Objects *)
Definition pset (C : obj) : Prop := o_rp C <> PUninit /\ o_ci C <> PUninit /\ o_va C <> PUninit.
Lemma default_holds (h : heap) : holds h defaultCtor (mkCsr 0 0 0 [] [] []).
Proof. constructor; try reflexivity; cbn; try lia. constructor. Qed.

Lemma makeEmpty_inv h0 n os h C (X : csr V) : Inv h0 n (owned C ++ os) h -> holds h C X ->
  exists C' h', makeEmpty C h = Ok (C', h') /\ Inv h0 n os h' /\ holds h' C' (mkCsr 0 0 0 [] [] []) /\ owned C' = [] /\ o_nnz C' = 0 /\ o_rows C' = 0 /\
    (pset C -> pset C') /\ (forall D (Y : csr V), holds h D Y -> (forall b, b ∈ owned D -> b ∈ os) -> holds h' D Y).
Proof.
  intros HI HX. eexists _, _. split; [eapply makeEmpty_ok, HX|]. split; [apply inv_deleteAll, HI|].
  split; [constructor; try reflexivity; cbn; try lia; constructor|]. split; [reflexivity|]. split; [reflexivity|]. split; [reflexivity|].
  split; [exact id|]. intros D Y HD Hos. eapply holds_frame; [exact HD|]. intros b Hb. rewrite deleteAll_lookup. rewrite decide_False; [reflexivity|].
  pose proof (i_nodup _ _ _ _ HI) as Hn. apply NoDup_app in Hn as (_ & Hn & _). intros Hc. exact (Hn b Hc (Hos b Hb)).
Qed.

Lemma allocI_inv h0 n os h l : Inv h0 n os h ->
  exists p h', allocI pick null0 l h = (p, h') /\ Inv h0 n (blk p ++ os) h' /\ p <> PUninit /\
    (forall b, b ∈ os -> h' !! b = h !! b) /\ (forall b, is_Some (h !! b) -> h' !! b = h !! b) /\
    (forall b, b ∈ blk p -> h !! b = None) /\
    (length l <> 0 -> exists b, p = PBlk b /\ h' !! b = Some (BI l)) /\ (length l = 0 -> length (blk p) = if null0 then 0 else 1).
Proof.
  intros HI. unfold allocI. destruct null0 eqn:E0, (Nat.eqb_spec (length l) 0) as [E|E]; cbn [andb].
  1: { eexists _, _. split; [reflexivity|]. split; [exact HI|]. split; [discriminate|]. split; [auto|]. split; [auto|].
       split; [intros b Hb; apply elem_of_nil in Hb as []|]. split; [intros; congruence|reflexivity]. }
  all: eexists _, _; (split; [reflexivity|]); (split; [apply inv_alloc, HI|]); (split; [discriminate|]).
  all: (split; [intros b Hb; destruct (i_new _ _ _ _ HI b Hb) as [_ [x Hx]]; rewrite lookup_insert_ne; [reflexivity|intros <-; rewrite pick_fresh in Hx; discriminate]|]).
  all: (split; [intros b [x Hx]; rewrite lookup_insert_ne; [reflexivity|intros <-; rewrite pick_fresh in Hx; discriminate]|]).
  all: (split; [intros b Hb; apply elem_of_list_singleton in Hb as ->; apply pick_fresh|]).
  all: (split; [intros _; eexists; split; [reflexivity|apply lookup_insert]|]); intros; try congruence; reflexivity.
Qed.
Lemma allocV_inv h0 n os h l : Inv h0 n os h ->
  exists p h', allocV pick null0 l h = (p, h') /\ Inv h0 n (blk p ++ os) h' /\ p <> PUninit /\
    (forall b, b ∈ os -> h' !! b = h !! b) /\ (forall b, is_Some (h !! b) -> h' !! b = h !! b) /\
    (forall b, b ∈ blk p -> h !! b = None) /\
    (length l <> 0 -> exists b, p = PBlk b /\ h' !! b = Some (BV l)) /\ (length l = 0 -> length (blk p) = if null0 then 0 else 1).
Proof.
  intros HI. unfold allocV. destruct null0 eqn:E0, (Nat.eqb_spec (length l) 0) as [E|E]; cbn [andb].
  1: { eexists _, _. split; [reflexivity|]. split; [exact HI|]. split; [discriminate|]. split; [auto|]. split; [auto|].
       split; [intros b Hb; apply elem_of_nil in Hb as []|]. split; [intros; congruence|reflexivity]. }
  all: eexists _, _; (split; [reflexivity|]); (split; [apply inv_alloc, HI|]); (split; [discriminate|]).
  all: (split; [intros b Hb; destruct (i_new _ _ _ _ HI b Hb) as [_ [x Hx]]; rewrite lookup_insert_ne; [reflexivity|intros <-; rewrite pick_fresh in Hx; discriminate]|]).
  all: (split; [intros b [x Hx]; rewrite lookup_insert_ne; [reflexivity|intros <-; rewrite pick_fresh in Hx; discriminate]|]).
  all: (split; [intros b Hb; apply elem_of_list_singleton in Hb as ->; apply pick_fresh|]).
  all: (split; [intros _; eexists; split; [reflexivity|apply lookup_insert]|]); intros; try congruence; reflexivity.
Qed.

(** Blocks that the object of a result does not answer for. *)
Definition wasted (R : csr V) : nat := (if nnz R =? 0 then if null0 then 0 else 2 else 0) + (if rows R =? 0 then 1 else 0).
Lemma setArrays_inv h0 n os h (R : csr V) zb : Inv h0 n os h -> shape R ->
  exists C h', setArrays pick null0 R zb h = (C, h') /\ Inv h0 (n + wasted R) (owned C ++ os) h' /\ holds h' C R /\ pset C /\
    (forall D (Y : csr V), holds h D Y -> holds h' D Y).
Proof.
  intros HI (L1 & L2 & L3). unfold setArrays.
  destruct (allocI_inv h0 n os h (rowptr R) HI) as (rp & h1 & -> & I1 & P1 & F1 & G1 & N1 & B1 & Z1).
  destruct (allocI_inv h0 n _ h1 (colids R) I1) as (ci & h2 & -> & I2 & P2 & F2 & G2 & N2 & B2 & Z2).
  destruct (allocV_inv h0 n _ h2 (values R) I2) as (va & h3 & -> & I3 & P3 & F3 & G3 & N3 & B3 & Z3).
  destruct (B1 ltac:(lia)) as (b1 & -> & Hb1). cbn [blk app] in *.
  assert (G : forall b, is_Some (h !! b) -> h3 !! b = h !! b).
  { intros b Hb. pose proof (G1 b Hb) as E1. rewrite G3, G2, E1; [reflexivity|rewrite E1; exact Hb|]. rewrite G2, E1; [exact Hb|rewrite E1; exact Hb]. }
  assert (Hb1' : h3 !! b1 = Some (BI (rowptr R))).
  { rewrite G3, G2 by (try rewrite G2; rewrite Hb1; eauto). exact Hb1. }
  eexists _, _. split; [reflexivity|].
  assert (Hfr : forall D (Y : csr V), holds h D Y -> holds h3 D Y).
  { intros D Y HD. eapply holds_frame; [exact HD|]. intros b Hb. apply G. destruct (h !! b) eqn:E; [eauto|]. exfalso. exact (holds_live h D Y HD b Hb E). }
  assert (Hp : pset (mkObj (rows R) (cols R) (nnz R) (PBlk b1) ci va zb)) by (split; [discriminate|split; assumption]).
  pose proof (i_nodup _ _ _ _ I3) as Hnd. unfold wasted.
  destruct (Nat.eqb_spec (nnz R) 0) as [En|En].
  - (* no entries *)
    assert (Hown : owned (mkObj (rows R) (cols R) (nnz R) (PBlk b1) ci va zb) = if 0 <? rows R then [b1] else []).
    { unfold owned. cbn [o_nnz o_rows o_rp]. rewrite En. reflexivity. }
    rewrite Hown. split; [|split; [|split; [exact Hp|exact Hfr]]].
    + assert (I3' : Inv h0 (n + (if null0 then 0 else 2)) (b1 :: os) h3).
      { rewrite (app_assoc (blk va)) in I3. apply inv_lose in I3. rewrite app_length, (Z2 ltac:(lia)), (Z3 ltac:(lia)) in I3. destruct null0; exact I3. }
      destruct (Nat.ltb_spec 0 (rows R)), (Nat.eqb_spec (rows R) 0); try lia; cbn [app].
      * rewrite Nat.add_0_r. exact I3'.
      * apply (inv_lose _ _ [b1]) in I3'. rewrite Nat.add_assoc. exact I3'.
    + constructor; try reflexivity; [intros; lia|intros _; exists b1; split; [reflexivity|exact Hb1']|].
      rewrite Hown. destruct (0 <? rows R); [apply NoDup_singleton|constructor].
  - destruct (B2 ltac:(lia)) as (b2 & -> & Hb2). destruct (B3 ltac:(lia)) as (b3 & -> & Hb3). cbn [blk app] in *.
    assert (Hb2' : h3 !! b2 = Some (BI (colids R))) by (rewrite G3 by eauto; exact Hb2).
    assert (Hown : owned (mkObj (rows R) (cols R) (nnz R) (PBlk b1) (PBlk b2) (PBlk b3) zb) = [b2; b3] ++ if 0 <? rows R then [b1] else []).
    { unfold owned. cbn [o_nnz o_rows o_rp o_ci o_va]. destruct (Nat.ltb_spec 0 (nnz R)); [|lia]. reflexivity. }
    assert (I3' : Inv h0 n ([b2; b3] ++ b1 :: os) h3) by (eapply inv_perm; [exact I3|apply Permutation_swap]).
    split; [|split; [|split; [exact Hp|exact Hfr]]].
    + rewrite Hown. destruct (Nat.ltb_spec 0 (rows R)), (Nat.eqb_spec (rows R) 0); try lia; cbn [app].
      * rewrite Nat.add_0_r. exact I3'.
      * apply (inv_lose _ _ [b1]). eapply inv_perm; [exact I3'|]. symmetry. apply (Permutation_middle [b2; b3] os b1).
    + constructor; try reflexivity.
      * intros _. exists b2, b3. auto.
      * intros _. exists b1. split; [reflexivity|exact Hb1'].
      * rewrite Hown. pose proof (i_nodup _ _ _ _ I3') as Hn. change ([b2; b3] ++ b1 :: os) with ([b2; b3; b1] ++ os) in Hn. apply NoDup_app in Hn as [Hn _].
        destruct (0 <? rows R); [exact Hn|]. rewrite app_nil_r. change [b2; b3; b1] with ([b2; b3] ++ [b1]) in Hn. apply NoDup_app in Hn as [Hn _]. exact Hn.
Qed.

Lemma size_news (h h' : heap) bs : NoDup bs -> (forall b, b ∈ bs -> h !! b = None) -> (forall b, b ∉ bs -> h' !! b = h !! b) -> (forall b, b ∈ bs -> is_Some (h' !! b)) ->
  size h' = size h + length bs.
Proof.
  revert h. induction bs as [|b bs IH]; intros h Hn H1 H2 H3.
  - assert (h' = h) as ->; [|simpl; lia]. apply map_eq. intros i. apply H2. intros Hi. inversion Hi.
  - apply NoDup_cons in Hn as [Hb Hn]. destruct (H3 b ltac:(left)) as [x Hx]. rewrite (IH (<[b := x]> h)).
    + rewrite map_size_insert_None by (apply H1; left). simpl. lia.
    + exact Hn.
    + intros c Hc. rewrite lookup_insert_ne by (intros ->; contradiction). apply H1. right. exact Hc.
    + intros c Hc. destruct (decide (c = b)) as [->|Hne]; [rewrite lookup_insert; exact Hx|]. rewrite lookup_insert_ne by congruence. apply H2. rewrite elem_of_cons. tauto.
    + intros c Hc. apply H3. right. exact Hc.
Qed.

Lemma assign_va (d o : obj) (h h' : heap) d' : assign dflt pick false d o h = Ok (d', h') -> o_nnz o = 0 -> o_va d' = o_va d.
Proof.
  intros E Ez. unfold assign in E. rewrite Ez in E. cbn [Nat.ltb Nat.leb bind] in E. destruct (if 0 <? o_nnz d then _ else _) as [h1|]; [|discriminate E]. cbn [bind] in E.
  destruct (if 0 <? o_rows d then _ else _) as [h2|]; [|discriminate E]. cbn [bind] in E. destruct (if 0 <? o_cols o then _ else _) as [[rp h3]|]; [|discriminate E]. cbn [bind] in E.
  injection E as <- _. reflexivity.
Qed.
Lemma assign_step (R X : csr V) C h0 n h : Inv h0 n (owned C) h -> holds h C X -> shape R -> wf R -> (0 < rows R <-> 0 < cols R) ->
  exists C' h', publishAssign dflt pick null0 R C h = Ok (C', h') /\ Inv h0 (n + wasted R) (owned C') h' /\ holds h' C' R /\ (nnz R = 0 -> o_va C' = o_va C).
Proof.
  intros HI HX HR HwR Hrc. rewrite <- (app_nil_r (owned C)) in HI. unfold publishAssign.
    destruct (setArrays_inv h0 n _ h R true HI HR) as (T & h1 & -> & I1 & HT & PT & F1). rewrite app_nil_r in I1. pose proof (F1 C X HX) as HX1.
    pose proof (i_nodup _ _ _ _ I1) as Hnd. apply NoDup_app in Hnd as (_ & Hdis & _).
    destruct (assign_ok dflt pick pick_fresh h1 C T R X HwR HT HX1 Hdis Hrc) as (C2 & h2 & E2 & N1 & N2 & N3 & N4). rewrite E2. cbn [bind].
    assert (I1' : Inv h0 (n + wasted R) (owned T) (deleteAll (owned C) h1)) by (apply inv_deleteAll; eapply inv_perm; [exact I1|apply Permutation_app_comm]).
    assert (I2 : Inv h0 (n + wasted R) (owned T ++ owned C2) h2).
    { destruct I1' as [K1 K2 K3 K4]. assert (Hout : forall b, is_Some (deleteAll (owned C) h1 !! b) -> h2 !! b = deleteAll (owned C) h1 !! b).
      { intros b [x Hx]. apply N4. intros Hb. rewrite (N3 b Hb) in Hx. discriminate. }
      assert (Hsub : deleteAll (owned C) h1 ⊆ h2) by (apply map_subseteq_spec; intros b x Hx; rewrite Hout by eauto; exact Hx).
      constructor.
      - etransitivity; eassumption.
      - rewrite app_length, Nat.add_assoc, <- K2. apply size_news; [apply N1|exact N3|exact N4|]. intros b Hb. pose proof (holds_live h2 C2 R N1 b Hb). destruct (h2 !! b); [eauto|congruence].
      - apply NoDup_app. split; [exact K3|]. split; [|apply N1]. intros b Hb Hb2. destruct (K4 b Hb) as [_ [x Hx]]. rewrite (N3 b Hb2) in Hx. discriminate.
      - intros b Hb. apply elem_of_app in Hb as [Hb|Hb].
        + destruct (K4 b Hb) as [Q1 Q2]. split; [exact Q1|]. rewrite Hout by exact Q2. exact Q2.
        + split; [eapply lookup_weaken_None; [apply (N3 b Hb)|exact K1]|]. pose proof (holds_live h2 C2 R N1 b Hb). destruct (h2 !! b); [eauto|congruence]. }
    assert (HT2 : holds h2 T R).
    { eapply holds_frame; [exact HT|]. intros b Hb. pose proof (i_new _ _ _ _ I1' b Hb) as [_ [x Hx]]. rewrite N4 by (intros Hb2; rewrite (N3 b Hb2) in Hx; discriminate).
      rewrite deleteAll_lookup, decide_False by (apply Hdis, Hb). reflexivity. }
    destruct (makeEmpty_inv _ _ _ _ T R I2 HT2) as (T' & h3 & E3 & I3 & _ & _ & _ & _ & _ & F3). rewrite E3. cbn [bind].
    eexists _, _. split; [reflexivity|]. split; [exact I3|]. split; [apply F3; [exact N1|auto]|]. intros Ez. apply (assign_va _ _ _ _ _ E2). rewrite (h_nnz _ _ _ HT). exact Ez.
Qed.

(** ** One call *)
Definition extra (k : kind) (t : nat) : nat :=
  match k with
  | KNohash mr mn => (if mn =? 0 then if null0 then 0 else 2 else 0) + (if mr =? 0 then 1 else 0)
  | KHeap => if null0 && (t =? 0) then 0 else 1
  | _ => 0
  end.
Definition frees (k : kind) (C : obj) : bool :=
  match k with K1p | K2p | KAssign => true | KOver | KNohash _ _ => false | KHeap => negb (o_nnz C =? 0) end.

Lemma publish_ok k t (R X : csr V) C h0 n h : Inv h0 n (owned C) h -> holds h C X -> handed k R ->
  exists C' h', publish dflt pick null0 k t R C h = Ok (C', h') /\
    Inv h0 (n + (if frees k C then 0 else length (owned C)) + extra k t + wasted R) (owned C') h' /\ holds h' C' R /\ pset C'.
Proof.
  intros HI HX [HR HA]. rewrite <- (app_nil_r (owned C)) in HI. destruct k as [| | |mr mn| |]; cbn [publish frees extra].
  - unfold initC. destruct (makeEmpty_inv h0 n [] h C X HI HX) as (C1 & h1 & -> & I1 & _). cbn [bind].
    destruct (setArrays_inv h0 n [] h1 R (o_zb C1) I1 HR) as (C2 & h2 & -> & I2 & H2 & P2 & _). rewrite app_nil_r in I2.
    eexists _, _. split; [reflexivity|]. rewrite !Nat.add_0_r. auto.
  - unfold publish2p, initC. change (makeEmpty defaultCtor h) with (Ok (defaultCtor, h)). cbn [bind].
    destruct (setArrays_inv h0 n _ h R (o_zb defaultCtor) HI HR) as (C2 & h2 & -> & I2 & H2 & P2 & F2). rewrite app_nil_r in I2.
    pose proof (F2 C X HX) as HX2.
    assert (I2' : Inv h0 (n + wasted R) (owned C ++ owned C2) h2) by (eapply inv_perm; [exact I2|apply Permutation_app_comm]).
    destruct (makeEmpty_inv _ _ _ _ C X I2' HX2) as (C3 & h3 & E3 & I3 & _ & _ & _ & _ & _ & F3). rewrite E3. cbn [bind].
    eexists _, _. split; [reflexivity|]. rewrite !Nat.add_0_r.
    assert (H3 : holds h3 C2 R) by (apply F3; [exact H2|auto]). clear E3. destruct C2 as [r c z rp ci va zb]. split; [exact I3|]. split; [|exact P2].
    destruct H3 as [Ha Hb Hc Hd He Hf]. constructor; assumption.
  - unfold publishOver. destruct (setArrays_inv h0 n _ h R true HI HR) as (C2 & h2 & -> & I2 & H2 & P2 & _).
    eexists _, _. split; [reflexivity|]. rewrite app_nil_r in I2. split; [|auto].
    replace (n + length (owned C) + 0 + wasted R) with (n + wasted R + length (owned C)) by lia. apply inv_lose. eapply inv_perm; [exact I2|apply Permutation_app_comm].
  - unfold publishNohash.
    set (T0 := mkCsr mr 0 mn (replicate (mr + 1) 0) (replicate mn 0) (replicate mn dflt)).
    assert (HT : shape T0) by (unfold T0; split; [cbn [rowptr rows]; apply replicate_length|split; cbn; apply replicate_length]).
    destruct (setArrays_inv h0 n _ h T0 true HI HT) as (C1 & h1 & -> & I1 & H1 & P1 & _).
    destruct (setArrays_inv _ _ _ h1 R true I1 HR) as (C2 & h2 & -> & I2 & H2 & P2 & F2).
    pose proof (F2 C1 T0 H1) as H1'.
    assert (I2' : Inv h0 (n + wasted T0 + wasted R) (owned C1 ++ owned C ++ owned C2) h2).
    { eapply inv_perm; [exact I2|]. rewrite app_nil_r. rewrite (Permutation_app_comm (owned C2)), <- app_assoc. reflexivity. }
    destruct (makeEmpty_inv _ _ _ _ C1 T0 I2' H1') as (C3 & h3 & E3 & I3 & H3 & O3 & _ & _ & _ & F3). rewrite E3. cbn [bind].
    change (owned C ++ owned C2) with ([] ++ owned C ++ owned C2) in I3. rewrite <- O3 in I3.
    destruct (makeEmpty_inv _ _ _ _ C3 _ I3 H3) as (C4 & h4 & E4 & I4 & H4 & O4 & _ & _ & _ & F4). rewrite E4. cbn [bind].
    eexists _, _. split; [reflexivity|]. split; [|split; [|exact P2]].
    + replace (n + length (owned C) + _ + wasted R) with (n + wasted T0 + wasted R + length (owned C)) by (unfold wasted, T0; cbn [nnz rows]; lia).
      apply inv_lose, I4.
    + apply F4; [apply F3; [exact H2|]|]; intros b Hb; apply elem_of_app; right; exact Hb.
  - unfold publishHeap.
    assert (G : exists C1 h1, (if o_nnz C =? 0 then Ok (C, h) else makeEmpty C h) = Ok (C1, h1) /\
              Inv h0 (n + (if negb (o_nnz C =? 0) then 0 else length (owned C))) [] h1).
    { destruct (o_nnz C =? 0); cbn [negb].
      - exists C, h. split; [reflexivity|]. apply inv_lose, HI.
      - destruct (makeEmpty_inv h0 n [] h C X HI HX) as (C1 & h1 & -> & I1 & _). exists C1, h1. rewrite Nat.add_0_r. auto. }
    destruct G as (C1 & h1 & -> & I1). cbn [bind].
    destruct (allocI_inv _ _ _ h1 (replicate t 0) I1) as (p & h2 & E2 & I2 & _ & _ & _ & _ & B2 & Z2). rewrite E2.
    apply inv_lose in I2. destruct (setArrays_inv _ _ _ h2 R (o_zb C1) I2 HR) as (C3 & h3 & -> & I3 & H3 & P3 & _).
    eexists _, _. split; [reflexivity|]. rewrite app_nil_r in I3. split; [|auto].
    replace (if null0 && (t =? 0) then 0 else 1) with (length (blk p)); [exact I3|].
    rewrite replicate_length in B2, Z2. destruct (Nat.eqb_spec t 0) as [Et|Et]; [rewrite (Z2 Et); destruct null0; reflexivity|].
    destruct (B2 Et) as (b & -> & _). rewrite andb_false_r. reflexivity.
  - destruct HA as [HwR Hz].
    assert (Hrc : 0 < rows R /\ 0 < cols R).
    { destruct (lookup_lt_is_Some_2 (colids R) 0) as [c Hc]; [rewrite (wf_colids R HwR); lia|]. pose proof (wf_range R HwR 0 c Hc). split; [|lia].
      destruct (Nat.eq_dec (rows R) 0) as [E|]; [|lia]. exfalso. apply Hz. pose proof (wf_last R HwR) as L. pose proof (wf_first R HwR) as L0. rewrite E in L. congruence. }
    rewrite app_nil_r in HI. destruct (assign_step R X C h0 n h HI HX HR HwR ltac:(lia)) as (C2 & h2 & -> & I2 & H3 & _).
    eexists _, _. split; [reflexivity|]. rewrite !Nat.add_0_r. split; [exact I2|]. split; [exact H3|].
    destruct (h_ent _ _ _ H3 ltac:(lia)) as (b & c & Eb & Ec & _). destruct (h_ptr _ _ _ H3 ltac:(lia)) as (d & Ed & _). unfold pset. rewrite Eb, Ec, Ed. repeat split; discriminate.
Qed.

(** ** The loops *)
Context (prod : nat -> nat -> csr V -> Prop).
Section Loops.
Context (k : kind) (t : nat) (h0 : heap).
Hypothesis prod_ex : forall nz, exists R, prod t nz R.
Hypothesis prod_shape : forall nz R, prod t nz R -> handed k R.

(** The object in view owns what it should. *)
Definition St (n : nat) (s : obj * heap) (X : csr V) : Prop := Inv h0 n (owned (fst s)) (snd s) /\ holds (snd s) (fst s) X.
Definition Result (n nz : nat) (s : obj * heap) (R : csr V) : Prop := St n s R /\ prod t nz R /\ pset (fst s).

Lemma call_step n s X : St n s X ->
  (exists r, call dflt pick null0 k prod t s r) /\
  forall r, call dflt pick null0 k prod t s r -> exists s' R, r = Ok s' /\
    Result (n + (if frees k (fst s) then 0 else length (owned (fst s))) + extra k t + wasted R) (o_nnz (fst s)) s' R.
Proof.
  intros [HI HX]. split.
  - destruct (prod_ex (o_nnz (fst s))) as [R HR]. eexists. exists R. eauto.
  - intros r (R & HR & ->). destruct s as [C h]. cbn [fst snd] in *.
    destruct (publish_ok k t R X C h0 n h HI HX (prod_shape _ _ HR)) as (C' & h' & -> & I' & H' & P').
    exists (C', h'), R. split; [reflexivity|]. split; [split; assumption|]. split; assumption.
Qed.
Lemma empty_step n s X : St n s X -> exists s', makeEmpty (fst s) (snd s) = Ok s' /\ St n s' (mkCsr 0 0 0 [] [] []) /\ owned (fst s') = [] /\ o_nnz (fst s') = 0.
Proof.
  intros [HI HX]. rewrite <- (app_nil_r (owned (fst s))) in HI. destruct (makeEmpty_inv _ _ _ _ _ X HI HX) as (C' & h' & E & I' & H' & O' & N' & _).
  exists (C', h'). split; [exact E|]. split; [|auto]. split; [|exact H']. cbn [fst snd]. rewrite O'. exact I'.
Qed.
Lemma measured_step n s X : St n s X ->
  (exists r, measured dflt pick null0 k prod t s r) /\
  forall r, measured dflt pick null0 k prod t s r -> exists s' R, r = Ok s' /\ Result (n + extra k t + wasted R) 0 s' R.
Proof.
  intros H. destruct (empty_step n s X H) as (s1 & E & H1 & O1 & N1). unfold measured. rewrite E.
  destruct (call_step n s1 _ H1) as [Hex Hall]. split; [exact Hex|]. intros r Hr. destruct (Hall r Hr) as (s' & R & -> & HR).
  rewrite O1, N1 in HR. exists s', R. split; [reflexivity|]. replace (n + extra k t + wasted R) with (n + (if frees k (fst s1) then 0 else length (@nil nat)) + extra k t + wasted R); [exact HR|].
  destruct (frees k (fst s1)); simpl; lia.
Qed.
Lemma Result_own n nz s (R : csr V) : Result n nz s R -> length (owned (fst s)) = (if nnz R =? 0 then 0 else 2) + (if rows R =? 0 then 0 else 1).
Proof.
  intros ([_ H] & _). unfold owned. rewrite (h_nnz _ _ _ H), (h_rows _ _ _ H). rewrite app_length. f_equal.
  - destruct (Nat.ltb_spec 0 (nnz R)) as [Hn|Hn], (Nat.eqb_spec (nnz R) 0) as [E|E]; try lia; [|reflexivity]. destruct (h_ent _ _ _ H Hn) as (b & c & -> & -> & _). reflexivity.
  - destruct (Nat.ltb_spec 0 (rows R)) as [Hn|Hn], (Nat.eqb_spec (rows R) 0) as [E|E]; try lia; [|reflexivity]. destruct (h_ptr _ _ _ H Hn) as (b & -> & _). reflexivity.
Qed.

(** All results have rows, and all or none have entries. *)
Definition uniform (none : bool) : Prop := forall nz R, prod t nz R -> rows R <> 0 /\ (nnz R =? 0) = none.
Lemma waste_u none nz R : uniform none -> prod t nz R -> extra k t + wasted R = lost_result null0 none + lost_local null0 k t.
Proof.
  intros Hu HR. destruct (Hu nz R HR) as [Hr Hn]. unfold wasted. rewrite Hn. destruct (Nat.eqb_spec (rows R) 0); [contradiction|].
  unfold lost_result, extra, lost_local. destruct none, null0; cbn [andb negb]; destruct k; lia.
Qed.

Lemma warm_res w : forall n nz s R, Result n nz s R ->
  (exists r, loopR (call dflt pick null0 k prod t) w s r) /\
  forall r, loopR (call dflt pick null0 k prod t) w s r -> exists s' n' nz' R', r = Ok s' /\ Result n' nz' s' R' /\ (w = 0 -> nz' = nz) /\
    forall none, uniform none -> n' = n + w * (lost_result null0 none + lost_local null0 k t + lost_before none k).
Proof.
  induction w as [|w IH]; intros n nz s R HR.
  - split; [eexists; constructor|]. intros r Hr. inversion Hr; subst. exists s, n, nz, R. split; [reflexivity|]. split; [exact HR|]. split; [auto|]. intros; lia.
  - pose proof (proj1 HR) as HS. destruct (call_step n s R HS) as [[r0 Hex] Hall]. destruct (Hall r0 Hex) as (s0 & R0 & -> & HR0). split.
    + destruct (IH _ _ _ _ HR0) as [[r Hr] _]. exists r. eapply loop_next; eauto.
    + intros r Hr. inversion Hr as [|? ? e Hb|? ? s' ? Hb Hl]; subst.
      { destruct (Hall _ Hb) as (? & ? & [=] & _). }
      destruct (Hall _ Hb) as (s1 & R1 & [= <-] & HR1). destruct (proj2 (IH _ _ _ _ HR1) r Hl) as (s2 & n2 & nz2 & R2 & -> & HR2 & _ & Hn2).
      exists s2, n2, nz2, R2. split; [reflexivity|]. split; [exact HR2|]. split; [lia|]. intros none Hu. rewrite (Hn2 none Hu).
      pose proof (waste_u none _ _ Hu (proj1 (proj2 HR1))) as Hw. rewrite (Result_own _ _ _ _ HR).
      destruct (Hu _ _ (proj1 (proj2 HR))) as [Hrr Hnn]. rewrite Hnn. destruct (Nat.eqb_spec (rows R) 0); [contradiction|].
      replace (if frees k (fst s) then 0 else (if none then 0 else 2) + 1) with (lost_before none k); [lia|].
      destruct k; cbn [frees lost_before]; try (destruct none; reflexivity). rewrite (h_nnz _ _ _ (proj2 HS)), Hnn. destruct none; reflexivity.
Qed.

Lemma measured_loop m : forall n s X, St n s X ->
  (exists r, loopR (measured dflt pick null0 k prod t) m s r) /\
  forall r, loopR (measured dflt pick null0 k prod t) m s r -> exists s' n', r = Ok s' /\
    (m = 0 -> s' = s /\ n' = n) /\ (m <> 0 -> exists R', Result n' 0 s' R') /\
    forall none, uniform none -> n' = n + m * (lost_result null0 none + lost_local null0 k t).
Proof.
  induction m as [|m IH]; intros n s X HS.
  - split; [eexists; constructor|]. intros r Hr. inversion Hr; subst. exists s, n. split; [reflexivity|]. split; [auto|]. split; [lia|]. intros; lia.
  - destruct (measured_step n s X HS) as [[r0 Hex] Hall]. destruct (Hall r0 Hex) as (s0 & R0 & -> & HR0). split.
    + destruct (IH _ _ _ (proj1 HR0)) as [[r Hr] _]. exists r. eapply loop_next; eauto.
    + intros r Hr. inversion Hr as [|? ? e Hb|? ? s' ? Hb Hl]; subst.
      { destruct (Hall _ Hb) as (? & ? & [=] & _). }
      destruct (Hall _ Hb) as (s1 & R1 & [= <-] & HR1). destruct (proj2 (IH _ _ _ (proj1 HR1)) r Hl) as (s2 & n2 & -> & H0 & Hpos & Hn2).
      exists s2, n2. split; [reflexivity|]. split; [lia|]. split.
      * intros _. destruct m as [|m']; [|apply Hpos; lia]. destruct (H0 eq_refl) as [-> ->]. eauto.
      * intros none Hu. rewrite (Hn2 none Hu). pose proof (waste_u none _ _ Hu (proj1 (proj2 HR1))) as Hw. lia.
Qed.

End Loops.

(** ** The report *)
Context (zero : S) (step : S -> V -> S) (plus : S -> S -> S).
Context (encI : nat -> list N) (encV : V -> list N) (szI szV : nat).
Hypotheses (HI : forall a, length (encI a) = szI) (HV : forall a, length (encV a) = szV).

Lemma foldM_ok {A B} (f : B -> A -> res B) (l : list A) : (forall b a, a ∈ l -> exists b', f b a = Ok b') -> forall b, exists b', foldM f l b = Ok b'.
Proof.
  induction l as [|a l IH]; intros H b; [eexists; reflexivity|]. destruct (H b a ltac:(left)) as [b' E].
  destruct (IH ltac:(intros; apply H; right; assumption) b') as [b'' E']. exists b''. cbn [foldM]. rewrite E. exact E'.
Qed.
Lemma sumall_ex (vals : list V) nz : nz <= length vals -> exists x, sumall_result zero step plus vals nz x.
Proof.
  intros Hl. destruct (foldM_ok (fun acc i => v <- get vals i ;; Ok (step acc v)) (seq 0 nz)) with (b := zero) as [x Hx].
  { intros b a Ha. apply elem_of_seq in Ha. destruct (lookup_lt_is_Some_2 vals a) as [v Hv]; [lia|]. rewrite (get_Some _ _ _ Hv). eexists; reflexivity. }
  exists (fold_left plus [x] zero), [seq 0 nz], [x], [x]. split; [unfold ParModel.schedule; simpl; rewrite app_nil_r; reflexivity|]. split; [constructor; [exact Hx|constructor]|]. split; reflexivity.
Qed.
Lemma get_ok {A} (l : list A) i : i < length l -> exists x, get l i = Ok x.
Proof. intros H. destruct (lookup_lt_is_Some_2 l i H) as [x Hx]. exists x. apply get_Some, Hx. Qed.
Lemma calc_ok data len : len <= length data -> exists c, calculateChecksum data len = Ok c.
Proof.
  intros Hl. unfold calculateChecksum. pose proof (Nat.div_mod len 2 ltac:(lia)) as Hd.
  destruct (for_inv (fun _ (_ : N) => True) (fun i c => x <- word16 data i ;; Ok (addWord c x)) 0 (len / 2) 0%N) as (c & -> & _); [lia|exact Logic.I| |].
  { intros i c Hi _. unfold word16. destruct (get_ok data (2 * i)) as [x ->]; [lia|]. destruct (get_ok data (2 * i + 1)) as [y ->]; [lia|]. cbn [bind]. eauto. }
  cbn [bind]. destruct (Nat.odd len) eqn:Eo; cbn [bind]; [|eauto].
  apply Nat.odd_spec in Eo as [q Hq]. destruct (get_ok data (2 * (len / 2))) as [x ->]; [|cbn [bind]; eauto].
  assert (len mod 2 <> 0); [|lia]. intros E. apply Nat.mod_divides in E as [c' E]; lia.
Qed.
Lemma mjoin_len {A} (enc : A -> list N) sz (l : list A) : (forall a, length (enc a) = sz) -> length (mjoin (enc <$> l)) = length l * sz.
Proof. intros H. induction l as [|a l IH]; [reflexivity|]. rewrite fmap_cons, mjoin_cons, app_length, IH, H. simpl. reflexivity. Qed.
Lemma checksum_ok (R : csr V) : shape R -> exists c, checksum encI encV szI szV (rows R) (nnz R) (rowptr R) (colids R) (values R) = Ok c.
Proof.
  intros (L1 & L2 & L3). unfold checksum.
  destruct (calc_ok (mjoin (encV <$> values R)) (nnz R * szV)) as [a ->]; [rewrite (mjoin_len _ _ _ HV), L3; lia|].
  destruct (calc_ok (mjoin (encI <$> colids R)) (nnz R * szI)) as [b ->]; [rewrite (mjoin_len _ _ _ HI), L2; lia|].
  destruct (calc_ok (mjoin (encI <$> rowptr R)) (rows R * szI)) as [c ->]; [rewrite (mjoin_len _ _ _ HI), L1; nia|]. cbn [bind]. eauto.
Qed.

Lemma report_ok t h0 n nz s R : Result t h0 n nz s R -> shape R -> forall r,
  report zero step plus encI encV szI szV t (fst s) (snd s) r <->
  exists x c, sumall_result zero step plus (values R) (nnz R) x /\
    checksum encI encV szI szV (rows R) (nnz R) (rowptr R) (colids R) (values R) = Ok c /\ r = Ok (mkLine t (nnz R) x c).
Proof.
  intros ([_ H] & _ & (P1 & P2 & P3)) HR r. destruct (checksum_ok R HR) as [c Hc]. destruct HR as (L1 & L2 & L3). unfold report.
  assert (nn : forall p, p <> PUninit -> exists b, notNull p = Ok b) by (intros [| |b]; [contradiction|eexists; reflexivity..]).
  assert (Ev : readV (o_va (fst s)) (o_nnz (fst s)) (snd s) = Ok (values R)).
  { unfold readV. destruct (nn _ P3) as [? ->]. cbn [bind]. rewrite (h_nnz _ _ _ H). destruct (Nat.eqb_spec (nnz R) 0) as [E|E].
    - destruct (values R); [reflexivity|cbn in L3; lia].
    - destruct (h_ent _ _ _ H ltac:(lia)) as (b & b' & _ & -> & _ & Hb). cbn [blkV]. rewrite Hb. reflexivity. }
  assert (Ei : readI (o_ci (fst s)) (o_nnz (fst s)) (snd s) = Ok (colids R)).
  { unfold readI. destruct (nn _ P2) as [? ->]. cbn [bind]. rewrite (h_nnz _ _ _ H). destruct (Nat.eqb_spec (nnz R) 0) as [E|E].
    - destruct (colids R); [reflexivity|cbn in L2; lia].
    - destruct (h_ent _ _ _ H ltac:(lia)) as (b & b' & -> & _ & Hb & _). cbn [blkI]. rewrite Hb. reflexivity. }
  assert (Ep : exists rp, readI (o_rp (fst s)) (o_rows (fst s)) (snd s) = Ok rp /\
            checksum encI encV szI szV (rows R) (nnz R) rp (colids R) (values R) = Ok c).
  { unfold readI. destruct (nn _ P1) as [? ->]. cbn [bind]. rewrite (h_rows _ _ _ H). destruct (Nat.eqb_spec (rows R) 0) as [E|E].
    - exists []. split; [reflexivity|]. rewrite <- Hc. unfold checksum. rewrite E. reflexivity.
    - destruct (h_ptr _ _ _ H ltac:(lia)) as (b & -> & Hb). cbn [blkI]. rewrite Hb. exists (rowptr R). split; [reflexivity|exact Hc]. }
  destruct Ep as (rp & Ep & Ec). rewrite Ev, Ei, Ep. cbn [bind]. rewrite (h_rows _ _ _ H), (h_nnz _ _ _ H), Ec. cbn [bind].
  split; [intros (x & Hx & ->)|intros (x & c' & Hx & Hc' & ->)]; [|rewrite Hc in Hc'; injection Hc' as <-]; eauto.
Qed.

(** ** One number of threads *)
Notation RUN1 := (runOne dflt pick null0 zero step plus encI encV szI szV).
Notation RUN := (run dflt pick null0 zero step plus encI encV szI szV).

Notation line_of := (line_says zero step plus encI encV szI szV prod).

Lemma runOne_ok k t w n h : (forall nz, exists R, prod t nz R) -> (forall nz R, prod t nz R -> handed k R) -> 0 < w + n ->
  (N.of_nat w <= 2147483647)%N -> (N.of_nat n <= 2147483647)%N ->
  (exists r, RUN1 k prod w n t h r) /\
  forall r, RUN1 k prod w n t h r -> exists h' l, r = Ok (h', l) /\ h ⊆ h' /\ line_of t (0 < n \/ w = 1) l /\
    forall none, uniform t none -> size h' = size h + lost null0 none k t w n.
Proof.
  intros Hex Hsh Hwn Hw Hn. unfold runOne, intLoop.
  destruct (N.leb_spec (N.of_nat w) 2147483647); [|lia]. destruct (N.leb_spec (N.of_nat n) 2147483647); [|lia].
  assert (S0 : St h 0 (defaultCtor, h) (mkCsr 0 0 0 [] [] [])) by (split; [apply inv_start|apply default_holds]).
  (* warm-up *)
  assert (HW : (exists r, loopR (call dflt pick null0 k prod t) w (defaultCtor, h) r) /\
    forall r, loopR (call dflt pick null0 k prod t) w (defaultCtor, h) r -> exists s n1, r = Ok s /\ (exists X, St h n1 s X) /\
      (w <> 0 -> exists nz R, Result t h n1 nz s R /\ (w = 1 -> nz = 0)) /\
      forall none, uniform t none -> n1 = w * (lost_result null0 none + lost_local null0 k t) + (w - 1) * lost_before none k).
  { destruct w as [|w].
    - split; [eexists; constructor|]. intros r Hr. inversion Hr; subst. exists (defaultCtor, h), 0. split; [reflexivity|]. split; [eauto|]. split; [lia|]. intros; lia.
    - destruct (call_step k t h Hex Hsh 0 (defaultCtor, h) _ S0) as [[r0 Hr0] Hall]. destruct (Hall r0 Hr0) as (s0 & R0 & -> & HR0). split.
      + destruct (warm_res k t h Hex Hsh w _ _ _ _ HR0) as [[r Hr] _]. exists r. eapply loop_next; eauto.
      + intros r Hr. inversion Hr as [|? ? e Hb|? ? s' ? Hb Hl]; subst; [destruct (Hall _ Hb) as (? & ? & [=] & _)|].
        destruct (Hall _ Hb) as (s1 & R1 & [= <-] & HR1). destruct (proj2 (warm_res k t h Hex Hsh w _ _ _ _ HR1) r Hl) as (s2 & n2 & nz2 & R2 & -> & HR2 & Hz & Hn2).
        exists s2, n2. split; [reflexivity|]. split; [exists R2; apply HR2|]. split.
        * intros _. exists nz2, R2. split; [exact HR2|]. intros Ew. rewrite Hz by lia. reflexivity.
        * intros none Hu. rewrite (Hn2 none Hu). pose proof (waste_u k t h Hex Hsh none _ _ Hu (proj1 (proj2 HR1))) as Hws.
          replace (if frees k (fst (defaultCtor, h)) then 0 else length (owned (fst (defaultCtor, h)))) with 0 by (destruct (frees k (fst (defaultCtor, h))); reflexivity). lia. }
  destruct HW as [[rw Hrw] HWall].
  (* after the measured calls there is a result *)
  assert (HM : forall s n1, (exists X, St h n1 s X) -> (w <> 0 -> exists nz R, Result t h n1 nz s R /\ (w = 1 -> nz = 0)) ->
    (exists r, loopR (measured dflt pick null0 k prod t) n s r) /\
    forall r, loopR (measured dflt pick null0 k prod t) n s r -> exists s' n2 nz R, r = Ok s' /\ Result t h n2 nz s' R /\ (0 < n \/ w = 1 -> nz = 0) /\
      forall none, uniform t none -> n2 = n1 + n * (lost_result null0 none + lost_local null0 k t)).
  { intros s n1 [X HX] Hres. destruct (measured_loop k t h Hex Hsh n n1 s X HX) as [Hex2 Hall2]. split; [exact Hex2|].
    intros r Hr. destruct (Hall2 r Hr) as (s' & n2 & -> & Hz & Hpos & Hn2). destruct (decide (n = 0)) as [En|En].
    - destruct (Hz En) as [-> ->]. destruct (Hres ltac:(lia)) as (nz & R & HR & H1). exists s, n1, nz, R. split; [reflexivity|]. split; [exact HR|]. split; [intros [?|?]; [lia|auto]|].
      intros none Hu. rewrite En. lia.
    - destruct (Hpos En) as [R HR]. exists s', n2, 0, R. auto. }
  (* the end *)
  assert (HE : forall s n2 nz R, Result t h n2 nz s R -> (0 < n \/ w = 1 -> nz = 0) ->
    (exists r3, report zero step plus encI encV szI szV t (fst s) (snd s) r3) /\
    forall r3, report zero step plus encI encV szI szV t (fst s) (snd s) r3 -> exists h' l,
      (l <- r3 ;; ' (C, h) <- makeEmpty (fst s) (snd s) ;; ' (C, h) <- makeEmpty C h ;; Ok (h, l)) = Ok (h', l) /\ h ⊆ h' /\ size h' = size h + n2 /\ line_of t (0 < n \/ w = 1) l).
  { intros s n2 nz R HR Hnz. pose proof (proj1 (Hsh nz R (proj1 (proj2 HR)))) as HshR.
    pose proof (report_ok t h n2 nz s R HR HshR) as Hrep. split.
    - destruct HshR as (L1 & L2 & L3). destruct (sumall_ex (values R) (nnz R)) as [x Hx]; [lia|].
      destruct (checksum_ok R) as [c Hc]; [split; auto|]. eexists. apply Hrep. exists x, c. eauto.
    - intros r3 Hr3. apply Hrep in Hr3 as (x & c & Hx & Hc & ->). cbn [bind].
      destruct (empty_step h n2 s R (proj1 HR)) as (s1 & -> & HS1 & O1 & _). destruct s1 as [C1 h1]. cbn [bind].
      destruct (empty_step h n2 (C1, h1) _ HS1) as (s2 & E2 & HS2 & O2 & _). cbn [fst snd] in E2. rewrite E2. destruct s2 as [C2 h2]. cbn [bind].
      eexists _, _. split; [reflexivity|]. destruct HS2 as [I2 _]. cbn [fst snd] in *. rewrite O2 in I2. split; [apply I2|]. split; [rewrite (i_size _ _ _ _ I2); simpl; lia|].
      split; [reflexivity|]. exists nz, R. cbn [l_nnz l_sum l_check]. split; [apply HR|]. auto. }
  split.
  - destruct (HWall rw Hrw) as (s & n1 & -> & HX & Hres & _). destruct (HM s n1 HX Hres) as [[r2 Hr2] HMall].
    destruct (HMall r2 Hr2) as (s' & n2 & nz & R & -> & HR & Hnz & _). destruct (HE s' n2 nz R HR Hnz) as [[r3 Hr3] _].
    destruct s' as [C' h']. eexists. exists (Ok s). split; [exact Hrw|]. exists (Ok (C', h')). split; [exact Hr2|]. exists r3. split; [exact Hr3|reflexivity].
  - intros r (r1 & Hr1 & Hr). destruct (HWall r1 Hr1) as (s & n1 & -> & HX & Hres & Hn1). destruct Hr as (r2 & Hr2 & Hr).
    destruct (proj2 (HM s n1 HX Hres) r2 Hr2) as (s' & n2 & nz & R & -> & HR & Hnz & Hn2). destruct s' as [C' h']. destruct Hr as (r3 & Hr3 & ->).
    destruct (proj2 (HE (C', h') n2 nz R HR Hnz) r3 Hr3) as (h2 & l & E & Hsub & Hsz & Hl). exists h2, l. split; [exact E|]. split; [exact Hsub|]. split; [exact Hl|].
    intros none Hu. rewrite Hsz, (Hn2 none Hu), (Hn1 none Hu). unfold lost. lia.
Qed.

Lemma run_ok k w n : 0 < w + n -> (N.of_nat w <= 2147483647)%N -> (N.of_nat n <= 2147483647)%N ->
  forall ts h, (forall t nz, t ∈ ts -> exists R, prod t nz R) -> (forall t nz R, t ∈ ts -> prod t nz R -> handed k R) ->
  (exists r, RUN k prod w n ts h r) /\
  forall r, RUN k prod w n ts h r -> exists h' ls, r = Ok (h', ls) /\ h ⊆ h' /\ Forall2 (fun t l => line_of t (0 < n \/ w = 1) l) ts ls /\
    forall none, (forall t, t ∈ ts -> uniform t none) -> size h' = size h + sum_list ((fun t => lost null0 none k t w n) <$> ts).
Proof.
  intros Hwn Hw Hn. induction ts as [|t ts IH]; intros h Hex Hsh.
  - split; [eexists; reflexivity|]. intros r ->. exists h, []. split; [reflexivity|]. split; [reflexivity|]. split; [constructor|]. intros; simpl; lia.
  - destruct (runOne_ok k t w n h ltac:(intros; apply Hex; left) ltac:(intros nz R; apply Hsh; left) Hwn Hw Hn) as [[r0 Hr0] Hall].
    assert (IH' := fun h => IH h ltac:(intros; apply Hex; right; assumption) ltac:(intros t' nz R Ht; apply Hsh; right; exact Ht)). split.
    + destruct (Hall r0 Hr0) as (h' & l & -> & _). destruct (IH' h') as [[r2 Hr2] _]. eexists. exists (Ok (h', l)). split; [exact Hr0|]. exists r2. split; [exact Hr2|reflexivity].
    + intros r (r1 & Hr1 & Hr). destruct (Hall r1 Hr1) as (h' & l & -> & Hs & Hl & Hn1). destruct Hr as (r2 & Hr2 & ->).
      destruct (proj2 (IH' h') r2 Hr2) as (h2 & ls & -> & Hs2 & Hls & Hn2). cbn [bind]. exists h2, (l :: ls). split; [reflexivity|]. split; [etransitivity; eassumption|].
      split; [constructor; assumption|]. intros none Hu. rewrite (Hn2 none), (Hn1 none); [|apply Hu; left|intros; apply Hu; right; assumption].
      rewrite fmap_cons. simpl. lia.
Qed.

(** A product that adds its entries to the nnz it finds. *)
Lemma warm_nnz k t h0 (c : nat) : (forall nz, exists R, prod t nz R) -> (forall nz R, prod t nz R -> handed k R) ->
  (forall nz R, prod t nz R -> nnz R = nz + c) ->
  forall w n s X, St h0 n s X -> forall s', loopR (call dflt pick null0 k prod t) w s (Ok s') -> o_nnz (fst s') = o_nnz (fst s) + w * c.
Proof.
  intros Hex Hsh Hc. induction w as [|w IH]; intros n s X HS s' Hr.
  - inversion Hr; subst. lia.
  - destruct (call_step k t h0 Hex Hsh n s X HS) as [_ Hall]. inversion Hr as [| |? ? s1 ? Hb Hl]; subst.
    destruct (Hall _ Hb) as (s2 & R1 & [= <-] & (HS1 & Hp1 & Hset)). rewrite (IH _ _ _ HS1 s' Hl), (h_nnz _ _ _ (proj2 HS1)), (Hc _ _ Hp1). lia.
Qed.
Lemma report_nnz t C h l : report zero step plus encI encV szI szV t C h (Ok l) -> l_nnz l = o_nnz C.
Proof.
  unfold report. intros H. destruct (bind _ _) as [[va c]|e]; [|discriminate]. destruct H as (x & _ & [= ->]). reflexivity.
Qed.
Lemma run_nnz k w (c : nat -> nat) : forall ts h h' ls,
  (forall t nz, t ∈ ts -> exists R, prod t nz R) -> (forall t nz R, t ∈ ts -> prod t nz R -> handed k R) ->
  (forall t nz R, t ∈ ts -> prod t nz R -> nnz R = nz + c t) ->
  RUN k prod w 0 ts h (Ok (h', ls)) -> Forall2 (fun t l => l_nnz l = w * c t) ts ls.
Proof.
  induction ts as [|t ts IH]; intros h h' ls Hex Hsh Hc Hr.
  - injection Hr as _ ->. constructor.
  - destruct Hr as (r1 & (rw & Hw & Hr1) & Hr). destruct r1 as [[h1 l]|e]; [|discriminate]. destruct Hr as (r2 & Hr2 & E).
    destruct r2 as [[h2 ls2]|e]; [|discriminate]. injection E as -> ->. constructor.
    + destruct rw as [s|e]; [|discriminate]. destruct Hr1 as (r3 & Hm & Hr1). unfold intLoop in Hm, Hw. cbn [N.of_nat] in Hm. cbn in Hm. inversion Hm; subst. destruct s as [C hC].
      destruct Hr1 as (r4 & Hrep & E). destruct r4 as [l'|e]; [|discriminate]. cbn [bind] in E.
      destruct (makeEmpty C hC) as [[C1 h3]|e]; [|discriminate]. cbn [bind] in E. destruct (makeEmpty C1 h3) as [[C2 h4]|e]; [|discriminate]. cbn [bind] in E. injection E as -> ->.
      rewrite (report_nnz _ _ _ _ Hrep). destruct (N.of_nat w <=? 2147483647)%N; [|discriminate].
      apply (warm_nnz k t h (c t) ltac:(intros; apply Hex; left) ltac:(intros nz R; apply Hsh; left) ltac:(intros nz R; apply Hc; left) w 0 (defaultCtor, h) (mkCsr 0 0 0 [] [] [])
        ltac:(split; [apply inv_start|apply default_holds]) _ Hw).
    + eapply (IH h1); eauto; intros; [eapply Hex|eapply Hsh|eapply Hc]; try eassumption; right; assumption.
Qed.
End Run.
