(** The row algorithms of heap_mult_generic.h: what each writes to the local output. *)
From stdpp Require Import sorting.
From Verif Require Import KernelBase BaseProofs ComplProofs MsaProofs McaModel McaProofs HeapModel HeapPrimProofs HeapProofs
  HeapRowProofs HeapStatements HeapImplModel.
From Verif Require Import Base Spec.

(** A local output of [cap + 1] cells holding [dn] from cell 1 on. *)
Record lrep {V} (cap : nat) (L : lbuf V) (dn : list (nat * V)) : Prop := mkLrep {
  lr_ids : length (l_ids L) = cap + 1;
  lr_vals : length (l_vals L) = cap + 1;
  lr_pos : l_pos L = length dn;
  lr_room : length dn <= cap;
  lr_cell : forall p c v, dn !! p = Some (c, v) -> l_ids L !! (p + 1) = Some c /\ l_vals L !! (p + 1) = Some (Some v) }.

Lemma lrep_new {V} n : lrep n (@lnew V n) [].
Proof.
  split; cbn [lnew l_ids l_vals l_pos]; [apply replicate_length..|reflexivity|simpl; lia|].
  intros p c v H. rewrite lookup_nil in H. discriminate.
Qed.

Lemma localOut_ok {V} cap (L : lbuf V) dn : lrep cap L dn -> localOut L (length dn) = Ok dn.
Proof.
  intros HL. unfold localOut.
  destruct (for_inv (fun p l => l = take p dn)
    (fun p l => c <- get (l_ids L) (p + 1) ;; v <- getI (l_vals L) (p + 1) ;; Ok (l ++ [(c, v)])) 0 (length dn) []) as (l & Hf & Hl).
  - lia.
  - reflexivity.
  - intros p l Hp ->. destruct (lookup_lt_is_Some_2 dn p) as [[c v] Hcv]; [lia|].
    destruct (lr_cell _ _ _ HL p c v Hcv) as [H1 H2].
    rewrite (get_Some _ _ _ H1), bind_Ok, (getI_Some _ _ _ H2), bind_Ok. eexists. split; [reflexivity|].
    rewrite Nat.add_1_r. symmetry. apply take_S_r, Hcv.
  - rewrite Hf, Hl. rewrite take_ge by lia. reflexivity.
Qed.

Section PutL.
Context {V : Type} (mul add : V -> V -> V).
Local Notation prod := (nat * V * V)%type.
Local Notation pcols := (fmap (fun p : prod => fst (fst p))).
Local Notation grp := (grp mul add).

Lemma lrep_push cap (L : lbuf V) dn c v : lrep cap L dn -> length dn < cap ->
  lrep cap (mkLbuf (<[l_pos L + 1 := c]> (l_ids L)) (<[l_pos L + 1 := Some v]> (l_vals L)) (l_pos L + 1)) (dn ++ [(c, v)]).
Proof.
  intros [H1 H2 H3 H4 H5] Hc. split; cbn [l_ids l_vals l_pos]; rewrite ?insert_length, ?app_length; simpl; try lia.
  intros p c' v' Hp. apply lookup_app_Some in Hp as [Hp|[Hge Hp]].
  - pose proof (lookup_lt_Some _ _ _ Hp). rewrite !list_lookup_insert_ne by lia. auto.
  - apply list_lookup_singleton_Some in Hp as [Hz Hp]. inversion Hp; subst. replace (p + 1) with (l_pos L + 1) by lia.
    rewrite !list_lookup_insert by lia. auto.
Qed.

Lemma lrep_upd cap (L : lbuf V) dn c v v' : lrep cap L (dn ++ [(c, v)]) ->
  lrep cap (mkLbuf (l_ids L) (<[l_pos L := Some v']> (l_vals L)) (l_pos L)) (dn ++ [(c, v')]).
Proof.
  intros [H1 H2 H3 H4 H5]. rewrite app_length in *. simpl in *.
  split; cbn [l_ids l_vals l_pos]; rewrite ?insert_length, ?app_length; simpl; try lia.
  intros p c' w Hp. apply lookup_app_Some in Hp as [Hp|[Hge Hp]].
  - pose proof (lookup_lt_Some _ _ _ Hp). rewrite !list_lookup_insert_ne by lia. apply H5. apply lookup_app_l_Some, Hp.
  - apply list_lookup_singleton_Some in Hp as [Hz Hp]. inversion Hp; subst. split.
    + apply (H5 p c' v). apply lookup_app_Some. right. split; [lia|]. rewrite Hz. reflexivity.
    + replace (p + 1) with (l_pos L) by lia. rewrite list_lookup_insert by lia. reflexivity.
Qed.

Lemma putL_run (A B : csr V) cap dn rest : forall log done L, Forall2 (is_root A B) log rest ->
  StronglySorted le (pcols (done ++ rest)) -> lrep cap L (dn ++ grp done) ->
  length dn + length (first_touch (pcols (done ++ rest))) <= cap ->
  exists L', run (putL mul add A B) log (length (grp done), L) = Ok (length (grp (done ++ rest)), L') /\
    lrep cap L' (dn ++ grp (done ++ rest)).
Proof.
  induction rest as [|[[c a] b] rest IH]; intros log done L Hr Hs HL Hcap.
  { inversion Hr; subst. rewrite app_nil_r. exists L. split; [reflexivity|exact HL]. }
  inversion Hr as [|e x log' y (He & Ha & Hb) Hr' ]; subst. cbn [fst snd] in *.
  replace (done ++ (c, a, b) :: rest) with ((done ++ [(c, a, b)]) ++ rest) in * by (rewrite <- app_assoc; reflexivity).
  assert (Hs1 : StronglySorted le (pcols (done ++ [(c, a, b)]))).
  { clear -Hs. rewrite fmap_app in Hs. revert Hs. generalize (pcols (done ++ [(c, a, b)])). intros l.
    induction l as [|d l IH]; intros Hs; [constructor|]. simpl in Hs. inversion Hs as [|? ? H1 H2]; subst.
    constructor; [auto|]. apply List.Forall_app in H2. tauto. }
  pose proof (grp_length mul add done) as Hgl.
  cbn [foldM]. unfold putL at 1. rewrite (get_Some _ _ _ Ha), bind_Ok, (get_Some _ _ _ Hb), bind_Ok, He.
  destruct (decide (c ∈ pcols done)) as [Hin|Hn].
  - destruct (grp_snoc_old mul add done c a b Hs1 Hin) as (l0 & v & Hg & Hg'). rewrite Hg in HL |- *.
    destruct (Nat.ltb_spec 0 (length (l0 ++ [(c, v)]))) as [_|Hz]; [|rewrite app_length in Hz; simpl in Hz; lia].
    rewrite app_assoc in HL.
    assert (l_ids L !! l_pos L = Some c /\ l_vals L !! l_pos L = Some (Some v)) as [Hi Hv].
    { rewrite (lr_pos _ _ _ HL), app_length. simpl. apply (lr_cell _ _ _ HL).
      apply lookup_app_Some. right. split; [lia|]. rewrite Nat.sub_diag. reflexivity. }
    rewrite (get_Some _ _ _ Hi), bind_Ok, bind_Ok, Nat.eqb_refl, (getI_Some _ _ _ Hv), bind_Ok.
    rewrite set_Ok by (eapply lookup_lt_Some; eauto). rewrite !bind_Ok.
    replace (length (l0 ++ [(c, v)])) with (length (grp (done ++ [(c, a, b)]))) by (rewrite Hg', !app_length; reflexivity).
    apply (IH log' (done ++ [(c, a, b)])); auto. rewrite Hg', app_assoc. eapply lrep_upd, HL.
  - pose proof (grp_snoc_new mul add done c a b Hn) as Hg'.
    assert (length (dn ++ grp done) < cap) as Hroom.
    { rewrite app_length, grp_length. rewrite (fmap_app _ (done ++ [(c, a, b)]) rest) in Hcap.
      pose proof (first_touch_prefix_le (pcols (done ++ [(c, a, b)])) (pcols rest)) as Hle.
      rewrite (fmap_app _ done [(c, a, b)]) in Hle at 1. cbn [fmap list_fmap fst] in Hle.
      rewrite first_touch_snoc in Hle.
      rewrite decide_False in Hle by exact Hn. rewrite app_length in Hle. simpl in Hle, Hcap |- *. lia. }
    assert ((if 0 <? length (grp done) then k <- get (l_ids L) (l_pos L) ;; Ok (k =? c) else Ok false) = Ok false) as Hsame.
    { destruct (Nat.ltb_spec 0 (length (grp done))) as [Hz|]; [|reflexivity].
      assert (exists g0 k w, grp done = g0 ++ [(k, w)]) as (g0 & k & w & Hgk).
      { destruct (grp done) as [|[k w] g0 _] using rev_ind; [simpl in Hz; lia|]. eauto. }
      rewrite Hgk, app_assoc in HL.
      assert (l_ids L !! l_pos L = Some k) as Hi.
      { rewrite (lr_pos _ _ _ HL), app_length. simpl. eapply (lr_cell _ _ _ HL).
        apply lookup_app_Some. right. split; [lia|]. rewrite Nat.sub_diag. reflexivity. }
      rewrite (get_Some _ _ _ Hi), bind_Ok. destruct (Nat.eqb_spec k c) as [->|]; [|reflexivity]. exfalso. apply Hn.
      rewrite <- elem_of_first_touch, <- (grp_keys mul add), Hgk, fmap_app. apply elem_of_app. right. left. }
    rewrite Hsame, bind_Ok.
    pose proof (lr_pos _ _ _ HL) as Hpos.
    rewrite set_Ok by (rewrite (lr_vals _ _ _ HL); lia). rewrite bind_Ok.
    rewrite set_Ok by (rewrite (lr_ids _ _ _ HL); lia). rewrite !bind_Ok.
    replace (length (grp done) + 1) with (length (grp (done ++ [(c, a, b)]))) by (rewrite Hg', app_length; reflexivity).
    apply (IH log' (done ++ [(c, a, b)])); auto. rewrite Hg', app_assoc. apply lrep_push; [exact HL|exact Hroom].
Qed.
End PutL.

(** *** The guarded initialisation *)
Lemma initStep_len {V} insp (A B M : csr V) p me j h h' : initStep insp A B M p me j h = Ok h' ->
  length (hp h') <= length (hp h) + 1 /\ hcap h' = hcap h.
Proof.
  assert (forall e, h_append h e = Ok h' -> length (hp h') <= length (hp h) + 1 /\ hcap h' = hcap h) as Happ.
  { intros e. unfold h_append. destruct (_ <? _); [|discriminate]. intros H; inversion H; subst. cbn.
    rewrite app_length. simpl. lia. }
  assert (Ok h = Ok h' -> length (hp h') <= length (hp h) + 1 /\ hcap h' = hcap h) as Hsame.
  { intros H; inversion H; subst. lia. }
  unfold initStep. destruct (get (colids A) j) as [inner|]; [|discriminate]. cbn [bind].
  destruct (row_bounds B inner) as [[bb be]|]; [|discriminate]. cbn [bind].
  destruct (be - bb =? 0); [exact Hsame|].
  destruct (get (colids B) bb) as [key|]; [|discriminate]. cbn [bind].
  destruct (insp =? 0)%N; [apply Happ|]. destruct (insp =? 1)%N.
  - destruct (skip_init _ _ _ _ _ _ _) as [[key' loc]|]; [|discriminate]. cbn [bind]. destruct (loc <? be); auto. apply Happ.
  - destruct (search _ _ _ _ _ _ _ _ _) as [[[key' loc] keep]|]; [|discriminate]. cbn [bind]. destruct keep; auto. apply Happ.
Qed.

Lemma initG_step {V} insp (A B M : csr V) mb me j h : length (hp h) < hcap h ->
  initG insp A B M mb me j h = initStep insp A B M mb me j h.
Proof.
  intros Hl. unfold initG. apply Nat.ltb_lt in Hl. rewrite Hl. unfold initStep.
  destruct (get (colids A) j) as [inner|]; [|reflexivity]. cbn [bind].
  destruct (row_bounds B inner) as [[bb be]|]; [|reflexivity]. cbn [bind].
  destruct (be - bb =? 0); reflexivity.
Qed.

Lemma initG_for {V} insp (A B M : csr V) mb me n : forall lo h h', length (hp h) + n <= hcap h ->
  for_n n lo (initStep insp A B M mb me) h = Ok h' -> for_n n lo (initG insp A B M mb me) h = Ok h'.
Proof.
  induction n as [|n IH]; intros lo h h' Hl; cbn [for_n]; [auto|].
  rewrite initG_step by lia. destruct (initStep _ _ _ _ _ _ _ h) as [h1|] eqn:E; [|discriminate]. cbn [bind].
  apply initStep_len in E as [H1 H2]. apply IH. lia.
Qed.

Lemma initAll_initHeap {V} insp (A B M : csr V) i mb me h h' : wf A -> i < rows A -> length (row_entries A i) <= hcap h ->
  initHeap insp A B M i mb me (h_clear h) = Ok h' -> (h1 <- initAll insp A B M i mb me h ;; h_make h1) = Ok h'.
Proof.
  intros HA Hi Hl. unfold initHeap, initAll.
  destruct (row_bounds_wf A i HA Hi) as (ab & ae & Hab & Hae & _ & _ & ->). rewrite !bind_Ok.
  rewrite (row_entries_length A i ab ae HA Hi Hab Hae) in Hl. unfold for_.
  destruct (for_n (ae - ab) ab (initStep insp A B M mb me) (h_clear h)) as [h1|] eqn:E; [|discriminate].
  erewrite initG_for; [| |exact E]; [auto|]. cbn. lia.
Qed.

Lemma initG_hp {V} insp (A B M : csr V) p me j h1 h2 h1' h2' : hp h1 = hp h2 ->
  initG insp A B M p me j h1 = Ok h1' -> initG insp A B M p me j h2 = Ok h2' -> hp h1' = hp h2'.
Proof.
  intros Hh. unfold initG.
  destruct (get (colids A) j) as [inner|]; [|discriminate]. cbn [bind].
  destruct (row_bounds B inner) as [[bb be]|]; [|discriminate]. cbn [bind].
  destruct (be - bb =? 0); [intros; congruence|].
  destruct (_ <? hcap h1); [|discriminate]. destruct (_ <? hcap h2); [|discriminate]. apply initStep_hp, Hh.
Qed.

(** *** An empty mask of the right shape *)
Definition zeroM {V} (A B : csr V) : csr V := mkCsr (rows A) (cols B) 0 (replicate (rows A + 1) 0) [] [].
Lemma zeroM_wf {V} (A B : csr V) : wf (zeroM A B).
Proof.
  split; cbn [zeroM rows cols nnz rowptr colids values].
  - apply replicate_length.
  - apply lookup_replicate_2. lia.
  - intros i a b Ha Hb. apply lookup_replicate in Ha as [-> _]. apply lookup_replicate in Hb as [-> _]. lia.
  - apply lookup_replicate_2. lia.
  - reflexivity.
  - reflexivity.
  - intros i c Hc. rewrite lookup_nil in Hc. discriminate.
Qed.
Lemma zeroM_compat {V} (A B : csr V) : wf A -> wf B -> cols A = rows B -> compatible A B (zeroM A B).
Proof. intros. split; auto. apply zeroM_wf. Qed.

(** *** Positions of the linear scan *)
Lemma maxFrom_spec l : forall pos best x full, full !! best = Some x -> drop pos full = l -> (forall q e, q < pos -> full !! q = Some e -> ek x <= ek e) ->
  exists e, full !! maxFrom l pos best x = Some e /\ forall e', e' ∈ full -> ek e <= ek e'.
Proof.
  induction l as [|y l IH]; intros pos best x full Hb Hd Hlow; cbn [maxFrom].
  - exists x. split; [exact Hb|]. intros e' He'. apply elem_of_list_lookup in He' as [q Hq].
    apply (Hlow q); [|exact Hq]. apply lookup_lt_Some in Hq. assert (length (drop pos full) = 0) as H by (rewrite Hd; reflexivity).
    rewrite drop_length in H. lia.
  - assert (full !! pos = Some y) as Hy.
    { assert (drop pos full !! 0 = Some y) as H by (rewrite Hd; reflexivity). rewrite lookup_drop, Nat.add_0_r in H. exact H. }
    assert (drop (pos + 1) full = l) as Hd'.
    { replace (drop (pos + 1) full) with (drop 1 (drop pos full)) by (rewrite drop_drop; reflexivity). rewrite Hd. reflexivity. }
    unfold ent_lt. destruct (Nat.ltb_spec (ek y) (ek x)) as [Hlt|Hge].
    + apply IH; [exact Hy|exact Hd'|]. intros q e Hq Hqe. destruct (decide (q = pos)) as [->|Hne]; [rewrite Hy in Hqe; inversion Hqe; lia|].
      specialize (Hlow q e ltac:(lia) Hqe). lia.
    + apply IH; [exact Hb|exact Hd'|]. intros q e Hq Hqe. destruct (decide (q = pos)) as [->|Hne]; [rewrite Hy in Hqe; inversion Hqe; subst; lia|].
      apply (Hlow q e); [lia|exact Hqe].
Qed.

Lemma maxElement_spec l : l <> [] -> exists e, l !! maxElement l = Some e /\ forall e', e' ∈ l -> ek e <= ek e'.
Proof.
  destruct l as [|x l]; [contradiction|]. intros _. cbn [maxElement]. apply (maxFrom_spec l 1 0 x (x :: l)); [reflexivity|reflexivity|].
  intros q e Hq He. destruct q; [|lia]. inversion He; subst. lia.
Qed.

Lemma insert_perm {T} (l : list T) i x y : l !! i = Some x -> <[i := y]> l ≡ₚ y :: delete i l.
Proof.
  intros H. assert (i < length l) as Hi by (eapply lookup_lt_Some; eauto).
  rewrite insert_take_drop, delete_take_drop by exact Hi. symmetry. apply Permutation_middle.
Qed.

Lemma swap_last_perm {T} (l : list T) i x y lst : l !! i = Some x -> <[i := y]> l !! (length l - 1) = Some lst ->
  take (length l - 1) (<[i := lst]> (<[i := y]> l)) ≡ₚ delete i l.
Proof.
  intros Hx Hl. assert (i < length l) as Hi by (eapply lookup_lt_Some; eauto). rewrite list_insert_insert.
  destruct (decide (i = length l - 1)) as [->|Hne].
  - rewrite take_insert by lia. rewrite delete_take_drop. rewrite drop_ge by lia. rewrite app_nil_r. reflexivity.
  - rewrite list_lookup_insert_ne in Hl by exact Hne.
    destruct l as [|z k _] using rev_ind; [discriminate|]. rewrite app_length in *. simpl in *. rewrite Nat.add_sub in *.
    rewrite lookup_app_r, Nat.sub_diag in Hl by lia. inversion Hl; subst.
    rewrite insert_app_l by lia. rewrite take_app_alt by (rewrite insert_length; reflexivity).
    rewrite lookup_app_l in Hx by lia. rewrite (insert_perm k i x lst Hx).
    rewrite !delete_take_drop, take_app_le, drop_app_le by lia. rewrite app_assoc, (Permutation_app_comm _ [lst]). reflexivity.
Qed.

(** *** The loop of HeapLinear *)
Section Lin.
Context {V : Type}.
Variables (A B : csr V) (row : nat).
Hypotheses (HA : wf A) (HB : wf B) (Hin : cols A = rows B) (Hrow : row < rows A) (HsB : sorted_rows B).
Local Notation prod := (nat * V * V)%type.
Notation all := (row_prods A B row).
Notation tt_ := (fun _ : nat => true).

Local Lemma Hco0 : compatible A B (zeroM A B). Proof. apply zeroM_compat; assumption. Qed.

Lemma initAll0 M mb me h : length (row_entries A row) <= hcap h ->
  exists h1, initAll 0 A B M row mb me h = Ok h1 /\ Forall (valid A B) (hp h1) /\ hcap h1 = hcap h /\ rems A B (hp h1) ≡ₚ all.
Proof.
  intros Hcap. unfold initAll.
  destruct (row_bounds_wf A row HA Hrow) as (ab & ae & Hab & Hae & _ & _ & ->). rewrite bind_Ok.
  destruct (row_loop_inv A row ab ae (fun done h' => Forall (valid A B) (hp h') /\ hcap h' = hcap h /\
      length (hp h') <= length done /\ rems A B (hp h') ≡ₚ rp B done)
    (initG 0 A B M mb me) (h_clear h) HA Hrow Hab Hae) as (h1 & Hf & Hv & Hc & Hl & Hp).
  - cbn. split; [constructor|]. split; [reflexivity|]. split; [lia|reflexivity].
  - intros done j k v rest h1 Hl Hj Hk Hva Hkc (Hv & Hc & Hlen & Hperm).
    assert (k < rows B) as HkB by lia.
    assert (length done < length (row_entries A row)) as Hdl by (rewrite Hl, app_length; simpl; lia).
    rewrite initG_step by lia. unfold initStep. rewrite (get_Some _ _ _ Hk), bind_Ok.
    destruct (row_bounds_wf B k HB HkB) as (bb & be & Hbb & Hbe & Hle & Hben & ->). rewrite bind_Ok.
    pose proof (row_entries_length B k bb be HB HkB Hbb Hbe) as HlB.
    rewrite rp_snoc, app_length. simpl length.
    destruct (Nat.eqb_spec (be - bb) 0) as [He|He].
    { exists h1. split; [reflexivity|]. split; [exact Hv|]. split; [exact Hc|]. split; [lia|].
      destruct (row_entries B k); [|simpl in HlB; lia]. simpl. rewrite app_nil_r. exact Hperm. }
    destruct (row_entries_lookup_ex B k bb be 0 HB HkB Hbb Hbe) as (key & b & Hkey & Hcc & _ & _); [lia|].
    rewrite Nat.add_0_r in Hcc. rewrite (get_Some _ _ _ Hcc), bind_Ok.
    change ((0 =? 0)%N) with true. cbv iota. unfold h_append.
    destruct (Nat.ltb_spec (length (hp h1)) (hcap h1)); [|lia].
    eexists. split; [reflexivity|]. cbn [hp hcap].
    assert (valid A B (mkEnt key j bb)) as Hval.
    { split. exists k, v, bb, be, 0. cbn [erunr eloc ek]. rewrite Nat.add_0_r. repeat split; auto. apply row_cols_lookup. eauto. }
    split; [apply Forall_app; auto|]. split; [exact Hc|]. split; [rewrite app_length; simpl; lia|].
    rewrite (rems_perm A B (hp h1 ++ [mkEnt key j bb]) (mkEnt key j bb :: hp h1)) by (symmetry; apply Permutation_cons_append).
    rewrite rems_cons, Hperm, Permutation_app_comm. apply Permutation_app_head.
    unfold erem. cbn [erunr eloc]. rewrite Hk, Hva, Hbb, Nat.sub_diag. reflexivity.
  - exists h1. rewrite rp_row in Hp. auto.
Qed.

Lemma valid_next e : valid A B e -> exists inner a b be, colids A !! erunr e = Some inner /\ values A !! erunr e = Some a /\
  values B !! eloc e = Some b /\ ek e < cols B /\ rowptr B !! (inner + 1) = Some be /\
  if eloc e + 1 <? be then exists key, colids B !! (eloc e + 1) = Some key /\ ek e <= key /\
      valid A B (mkEnt key (erunr e) (eloc e + 1)) /\ erem A B e = (ek e, a, b) :: erem A B (mkEnt key (erunr e) (eloc e + 1))
  else erem A B e = [(ek e, a, b)].
Proof.
  intros Hv.
  destruct (valid_anatomy A B (zeroM A B) row 0 1 Hco0 Hrow ltac:(lia) e Hv)
    as (inner & a & b & bb & be & i & H1 & H2 & Hb & H3 & H4 & H5 & H6 & Hi & Hben & H7 & Hlt & Hr).
  exists inner, a, b, be. do 5 (split; [assumption|]).
  pose proof (row_entries_length B inner bb be HB H3 H4 H5) as HlB.
  destruct (Nat.ltb_spec (eloc e + 1) be) as [Hl|Hl].
  - destruct (row_entries_lookup_ex B inner bb be (i + 1) HB H3 H4 H5) as (key & b' & Hkey & Hcc & _ & _); [lia|].
    replace (bb + (i + 1)) with (eloc e + 1) in Hcc by lia.
    assert (row_cols B inner !! (i + 1) = Some key) as Hrc by (apply row_cols_lookup; eauto).
    exists key. split; [exact Hcc|]. split.
    { assert (ek e < key); [|lia]. eapply (SSorted_lookup_lt (row_cols B inner) i (i + 1)); eauto. lia. }
    split. { split. exists inner, a, bb, be, (i + 1). cbn [erunr eloc ek]. repeat split; auto. lia. }
    rewrite Hr. f_equal. unfold erem. cbn [erunr eloc]. rewrite H1, H2, H4. f_equal. f_equal. lia.
  - rewrite Hr. f_equal. rewrite drop_ge by lia. reflexivity.
Qed.

Lemma linLoop_spec thr fuel : forall h cs log, length (rems A B (hp h)) < fuel -> Forall (valid A B) (hp h) ->
  (thr < length (hp h) -> is_heap (hp h)) -> Jlog A B tt_ cs log -> cs ++ rems A B (hp h) ≡ₚ all ->
  (forall p e, p ∈ cs -> e ∈ hp h -> fst (fst p) <= ek e) ->
  exists h' log' cs', linLoop logact fuel thr A B h log = Ok (h', log') /\ hp h' = [] /\ hcap h' = hcap h /\
    Jlog A B tt_ cs' log' /\ cs' ≡ₚ all.
Proof.
  induction fuel as [|fuel IH]; intros h cs log Hf Hval Hheap HJ Hperm Hle; [lia|]. cbn [linLoop].
  destruct (Nat.eqb_spec (length (hp h)) 0) as [He|He].
  { apply nil_length_inv in He. rewrite He in Hperm. unfold rems in Hperm. simpl in Hperm. rewrite app_nil_r in Hperm.
    exists h, log, cs. auto 10. }
  assert (hp h <> []) as Hne by (intros Hn; rewrite Hn in He; simpl in He; lia).
  set (idx := if thr <? length (hp h) then 0 else maxElement (hp h)).
  assert (exists e, hp h !! idx = Some e /\ forall e', e' ∈ hp h -> ek e <= ek e') as (e & Hidx & Hmin).
  { unfold idx. destruct (Nat.ltb_spec thr (length (hp h))) as [Hb|Hb]; [|apply maxElement_spec, Hne].
    destruct (hp h) as [|e l0] eqn:Hh; [contradiction|]. exists e. split; [reflexivity|].
    apply is_heap_min; [apply Hheap, Hb|reflexivity]. }
  assert (valid A B e) as Hve by (eapply Forall_lookup_1; eauto).
  destruct (valid_next e Hve) as (inner & a & b & be & H1 & H2 & H3 & Hlt & H5 & Hnext).
  rewrite (get_Some _ _ _ Hidx), bind_Ok.
  pose proof (delete_Permutation _ _ _ Hidx) as Hdel.
  pose proof (rems_perm A B _ _ Hdel) as Hrem. rewrite rems_cons in Hrem.
  assert (Forall (valid A B) (delete idx (hp h))) as Hvd by (rewrite Hdel in Hval; inversion Hval; assumption).
  assert (idx < length (hp h)) as Hilt by (eapply lookup_lt_Some; eauto).
  destruct (Jlog_act (fun x _ => x) (fun x _ => x) A B row tt_ cs a b e log H2 H3 Hlt eq_refl HJ) as (log1 & Hact & HJ1).
  { intros p Hp. apply (Hle p e Hp). eapply elem_of_list_lookup_2, Hidx. }
  { intros p Hp. rewrite <- Hperm, Hrem. 
    assert (exists r, erem A B e = (ek e, a, b) :: r) as [r ->].
    { destruct (eloc e + 1 <? be); [destruct Hnext as (key & _ & _ & _ & ->)|rewrite Hnext]; eauto. }
    apply elem_of_app in Hp as [Hp|Hp]; apply elem_of_app; [left; exact Hp|right].
    apply elem_of_list_singleton in Hp as ->. left. }
  rewrite Hact, bind_Ok, (get_Some _ _ _ H1), bind_Ok, (get_Some _ _ _ H5), bind_Ok.
  (* the next state *)
  assert (Hstep : forall h2 l2, hp h2 ≡ₚ l2 -> hcap h2 = hcap h -> (thr < length (hp h2) -> is_heap (hp h2)) -> Forall (valid A B) l2 ->
    erem A B e ++ rems A B (delete idx (hp h)) ≡ₚ (ek e, a, b) :: rems A B l2 ->
    (forall e', e' ∈ l2 -> ek e <= ek e') ->
    exists h' log' cs', linLoop logact fuel thr A B h2 log1 = Ok (h', log') /\ hp h' = [] /\ hcap h' = hcap h /\
      Jlog A B tt_ cs' log' /\ cs' ≡ₚ all).
  { intros h2 l2 Hp2 Hc2 Hh2 Hv2 Hr2 Hm2. rewrite <- Hc2.
    apply (IH h2 (cs ++ [(ek e, a, b)])).
    - rewrite (rems_perm A B _ _ Hp2). rewrite Hrem, Hr2 in Hf. simpl in Hf. lia.
    - rewrite Hp2. exact Hv2.
    - exact Hh2.
    - exact HJ1.
    - rewrite <- app_assoc. rewrite <- Hperm, Hrem, Hr2. simpl. rewrite (rems_perm A B _ _ Hp2). reflexivity.
    - intros p e' Hp He'. rewrite Hp2 in He'. apply elem_of_app in Hp as [Hp|Hp].
      + etransitivity; [|apply (Hm2 _ He')]. apply (Hle p e Hp). eapply elem_of_list_lookup_2, Hidx.
      + apply elem_of_list_singleton in Hp as ->. apply (Hm2 _ He'). }
  assert (forall e', e' ∈ delete idx (hp h) -> ek e <= ek e') as Hmd.
  { intros e' He'. apply Hmin. rewrite Hdel. right. exact He'. }
  assert (thr < length (hp h) -> exists l0, hp h = e :: l0 /\ idx = 0 /\ delete idx (hp h) = l0) as Hbig.
  { intros Hb. apply Nat.ltb_lt in Hb. unfold idx in Hidx |- *. rewrite Hb in Hidx |- *. destruct (hp h) as [|e0 l0]; [discriminate|].
    inversion Hidx; subst. exists l0. auto. }
  destruct (eloc e + 1 <? be).
  - destruct Hnext as (key & Hk & Hkle & Hv' & Her). rewrite (get_Some _ _ _ Hk), bind_Ok.
    rewrite set_Ok by exact Hilt. rewrite bind_Ok. set (e' := mkEnt key (erunr e) (eloc e + 1)) in *.
    destruct (Nat.ltb_spec thr (length (hp h))) as [Hb|Hb].
    + destruct (Hbig Hb) as (l0 & Hh & Hi0 & Hd0).
      set (h1 := mkHeap (<[idx:=e']> (hp h)) (hcap h) (hmax h)).
      assert (hp h1 = e' :: l0) as Hh1. { unfold h1. rewrite Hi0, Hh. reflexivity. }
      assert (root_bad (hp h1)) as Hbad. { rewrite Hh1. eapply root_bad_set; [apply Hheap, Hb|exact Hh]. }
      destruct (h_sinkRoot_spec h1 e' l0 Hh1 Hbad) as (h' & -> & Hp' & Hheap' & Hc' & Hm'). rewrite bind_Ok.
      apply (Hstep h' (e' :: l0)); auto.
      * rewrite Hd0 in Hvd. constructor; assumption.
      * rewrite Her, Hd0, rems_cons. reflexivity.
      * intros x Hx. apply elem_of_cons in Hx as [->|Hx]; [exact Hkle|]. apply Hmd. rewrite Hd0. exact Hx.
    + rewrite bind_Ok. apply (Hstep _ (e' :: delete idx (hp h))).
      * cbn [hp]. apply (insert_perm _ _ e e' Hidx).
      * reflexivity.
      * cbn [hp]. rewrite insert_length. lia.
      * constructor; assumption.
      * rewrite Her, rems_cons. reflexivity.
      * intros x Hx. apply elem_of_cons in Hx as [->|Hx]; [exact Hkle|]. apply Hmd, Hx.
  - rewrite set_Ok by exact Hilt. rewrite bind_Ok. set (e' := mkEnt (ek e) (erunr e) (eloc e + 1)) in *.
    destruct (Nat.ltb_spec thr (length (hp h))) as [Hb|Hb].
    + destruct (Hbig Hb) as (l0 & Hh & Hi0 & Hd0).
      set (h1 := mkHeap (<[idx:=e']> (hp h)) (hcap h) (hmax h)).
      assert (hp h1 = e' :: l0) as Hh1. { unfold h1. rewrite Hi0, Hh. reflexivity. }
      assert (root_bad (hp h1)) as Hbad. { rewrite Hh1. eapply root_bad_set; [apply Hheap, Hb|exact Hh]. }
      destruct (h_pop_spec h1 e' l0 Hh1 Hbad) as (h' & -> & Hp' & Hheap' & Hc' & Hm'). rewrite bind_Ok.
      apply (Hstep h' l0); auto.
      * rewrite Hd0 in Hvd. assumption.
      * rewrite Hnext, Hd0. reflexivity.
      * rewrite Hd0 in Hmd. exact Hmd.
    + cbn [hp]. rewrite insert_length.
      destruct (lookup_lt_is_Some_2 (<[idx:=e']> (hp h)) (length (hp h) - 1)) as [lst Hlst]; [rewrite insert_length; lia|].
      rewrite (get_Some _ _ _ Hlst), bind_Ok. rewrite set_Ok by (rewrite insert_length; exact Hilt). rewrite !bind_Ok.
      rewrite !insert_length. pose proof (swap_last_perm _ _ _ _ _ Hidx Hlst) as Hsw.
      apply (Hstep _ (delete idx (hp h))); cbn [hp hcap]; auto.
      * rewrite take_length, !insert_length. lia.
      * rewrite Hnext. reflexivity.
Qed.
End Lin.

Lemma linLoop_log {V S} (act : hentry -> S -> res S) fuel thr (A B : csr V) : forall h log h' log',
  linLoop logact fuel thr A B h log = Ok (h', log') ->
  exists l, log' = log ++ l /\
    forall s s', run act l s = Ok s' -> linLoop act fuel thr A B h s = Ok (h', s').
Proof.
  induction fuel as [|fuel IH]; intros h log h' log' Hl; [discriminate|].
  cbn [linLoop] in *. destruct (length (hp h) =? 0).
  { inversion Hl; subst. exists []. split; [rewrite app_nil_r; reflexivity|]. intros s s'; cbn; congruence. }
  destruct (get (hp h) _) as [e|]; [|discriminate]. cbn [bind] in *.
  unfold logact in Hl at 1. cbn [bind] in *.
  destruct (get (colids A) _) as [inner|]; [|discriminate]. cbn [bind] in *.
  destruct (get (rowptr B) _) as [be|]; [|discriminate]. cbn [bind] in *.
  match type of Hl with bind ?x _ = _ => destruct x as [h1|] end; [|discriminate]. cbn [bind] in *.
  apply IH in Hl as (l & -> & H). exists (e :: l). split; [rewrite <- app_assoc; reflexivity|].
  intros s s'. cbn [foldM]. destruct (act e s) as [s1|]; [|discriminate]. cbn [bind]. apply H.
Qed.

Lemma linLoop_recap {V S} (act : hentry -> S -> res S) c m fuel thr (A B : csr V) : forall h s,
  linLoop act fuel thr A B (recap c m h) s = rmap (fun p => (recap c m (fst p), snd p)) (linLoop act fuel thr A B h s).
Proof.
  induction fuel as [|fuel IH]; intros h s; [reflexivity|]. cbn [linLoop].
  change (hp (recap c m h)) with (hp h).
  destruct (length (hp h) =? 0); [reflexivity|].
  set (idx := if thr <? length (hp h) then 0 else maxElement (hp h)).
  destruct (get (hp h) idx) as [e|]; [|reflexivity]. cbn [bind].
  destruct (act e s) as [s1|]; [|reflexivity]. cbn [bind].
  destruct (get (colids A) _) as [inner|]; [|reflexivity]. cbn [bind].
  destruct (get (rowptr B) _) as [be|]; [|reflexivity]. cbn [bind].
  destruct (eloc e + 1 <? be).
  - destruct (get (colids B) _) as [key|]; [|reflexivity]. cbn [bind].
    destruct (set_ (hp h) idx _) as [l|]; [|reflexivity]. cbn [bind].
    destruct (thr <? length (hp h)).
    + unfold h_sinkRoot. cbn [hp hcap hmax recap]. destruct (pop_heap l) as [l1|]; [|reflexivity]. cbn [bind].
      destruct (push_heap l1) as [l2|]; [|reflexivity]. cbn [bind]. apply (IH (mkHeap l2 (hcap h) (hmax h))).
    + cbn [bind]. apply (IH (mkHeap l (hcap h) (hmax h))).
  - destruct (set_ (hp h) idx _) as [l|]; [|reflexivity]. cbn [bind].
    destruct (thr <? length (hp h)).
    + unfold h_pop. cbn [hp hcap hmax recap]. destruct (pop_heap l) as [l1|]; [|reflexivity]. cbn [bind].
      apply (IH (mkHeap _ (hcap h) (hmax h))).
    + cbn [hp hcap hmax recap]. destruct (get l _) as [lst|]; [|reflexivity]. cbn [bind].
      destruct (set_ l idx lst) as [l2|]; [|reflexivity]. cbn [bind]. apply (IH (mkHeap _ (hcap h) (hmax h))).
Qed.

(** BasicHeap is HeapLinear with threshold 0. *)
Lemma heapTail_linLoop {V S} (act : hentry -> S -> res S) fuel (A B M : csr V) : forall h s,
  heapTail act fuel A B M h s = linLoop act fuel 0 A B h s.
Proof.
  induction fuel as [|fuel IH]; intros h s; [reflexivity|]. cbn [heapTail linLoop].
  destruct (Nat.eqb_spec (length (hp h)) 0) as [He|He]; [reflexivity|].
  destruct (Nat.ltb_spec 0 (length (hp h))) as [_|]; [|lia]. unfold h_top.
  destruct (get (hp h) 0) as [e|]; [|reflexivity]. cbn [bind].
  destruct (act e s) as [s1|]; [|reflexivity]. cbn [bind]. unfold insertNext, h_setRoot.
  destruct (get (colids A) _) as [inner|]; [|reflexivity]. cbn [bind].
  destruct (get (rowptr B) _) as [be|]; [|reflexivity]. cbn [bind].
  change ((0 =? 0)%N) with true. cbv iota.
  destruct (eloc e + 1 <? be).
  - destruct (get (colids B) _) as [key|]; [|reflexivity]. cbn [bind].
    destruct (set_ (hp h) 0 _) as [l|]; [|reflexivity]. cbn [bind].
    destruct (h_sinkRoot _) as [h1|]; [|reflexivity]. cbn [bind]. apply IH.
  - cbn [bind]. destruct (set_ (hp h) 0 _) as [l|]; [|reflexivity]. cbn [bind].
    destruct (h_pop _) as [h1|]; [|reflexivity]. cbn [bind]. apply IH.
Qed.

Lemma basicRow_linear {V} (mul add : V -> V -> V) A B M i h L : basicRow mul add A B M i h L = linearRow mul add 0 A B M i h L.
Proof.
  unfold basicRow, linearRow. destruct (initAll 0 A B M i 0 0 h) as [h1|]; [|reflexivity]. cbn [bind].
  assert (h_make h1 = (if 0 <? length (hp h1) then h_make h1 else Ok h1)) as <-.
  { destruct (Nat.ltb_spec 0 (length (hp h1))) as [|Hz]; [reflexivity|]. destruct h1 as [l c m]. cbn [hp] in Hz.
    destruct l; [|simpl in Hz; lia]. unfold h_make. cbn. destruct (m <? 0) eqn:E; [apply Nat.ltb_lt in E; lia|reflexivity]. }
  destruct (h_make h1) as [h2|]; [|reflexivity]. cbn [bind].
  rewrite heapTail_linLoop. reflexivity.
Qed.

Section Rows.
Context {V : Type} (mul add : V -> V -> V).
Local Notation prod := (nat * V * V)%type.
Local Notation pcols := (fmap (fun p : prod => fst (fst p))).

Lemma first_touch_length (l : list nat) : length (first_touch l) <= length l.
Proof.
  induction l as [|c l IH] using rev_ind; [reflexivity|]. rewrite first_touch_snoc, app_length. simpl.
  case_decide; [lia|]. rewrite app_length. simpl. lia.
Qed.

Lemma psel_length selb (ps : list prod) : length (psel selb ps) <= length ps.
Proof. apply filter_length. Qed.

Lemma psel_true (ps : list prod) : psel (fun _ => true) ps = ps.
Proof. unfold psel. induction ps as [|p ps IH]; [reflexivity|]. rewrite filter_cons, decide_True by reflexivity. f_equal. exact IH. Qed.

Lemma log_length (A B : csr V) row selb log ps : log_facts A B row selb log ps -> length (grp mul add ps) <= length (row_prods A B row).
Proof.
  intros (_ & _ & Hp). rewrite grp_length. etransitivity; [apply first_touch_length|]. rewrite fmap_length, Hp. apply psel_length.
Qed.

Lemma lin_log thr (A B : csr V) row : wf A -> wf B -> cols A = rows B -> row < rows A -> sorted_rows B ->
  exists log ps, log_facts A B row (fun _ => true) log ps /\
  forall M mb me h, length (row_entries A row) <= hcap h ->
  exists h1 h2 h', initAll 0 A B M row mb me h = Ok h1 /\ (if thr <? length (hp h1) then h_make h1 else Ok h1) = Ok h2 /\
    linLoop logact (heapFuel A B) thr A B h2 [] = Ok (h', log) /\ hcap h' = hcap h.
Proof.
  intros HA HB Hin Hrow HsB.
  assert (Hmk : forall h1, Forall (valid A B) (hp h1) -> rems A B (hp h1) ≡ₚ row_prods A B row ->
    exists h2 h' log cs, (if thr <? length (hp h1) then h_make h1 else Ok h1) = Ok h2 /\
      linLoop logact (heapFuel A B) thr A B h2 [] = Ok (h', log) /\ hcap h' = hcap h1 /\ Jlog A B (fun _ => true) cs log /\
      cs ≡ₚ row_prods A B row).
  { intros h1 Hv Hp.
    assert (exists h2, (if thr <? length (hp h1) then h_make h1 else Ok h1) = Ok h2 /\ hp h2 ≡ₚ hp h1 /\ hcap h2 = hcap h1 /\
      (thr < length (hp h2) -> is_heap (hp h2))) as (h2 & H2 & Hp2 & Hc2 & Hh2).
    { destruct (Nat.ltb_spec thr (length (hp h1))) as [Hb|Hb].
      - destruct (h_make_spec h1) as (h2 & H2 & Hp2 & Hh2 & Hc2 & _). exists h2. auto.
      - exists h1. split; [reflexivity|]. split; [reflexivity|]. split; [reflexivity|]. lia. }
    destruct (linLoop_spec A B row HA HB Hin Hrow HsB thr (heapFuel A B) h2 [] []) as (h' & log & cs & Hl & _ & Hc & HJ & Hcs).
    - rewrite (rems_perm A B _ _ Hp2), Hp.
      apply (fuel_ok (cols B) A B (zeroM A B) row 0 1 (zeroM_compat A B HA HB Hin) Hrow ltac:(lia) ltac:(lia)). reflexivity.
    - rewrite Hp2. exact Hv.
    - exact Hh2.
    - apply Jlog_nil.
    - rewrite (rems_perm A B _ _ Hp2), Hp. reflexivity.
    - intros p e Hpp. inversion Hpp.
    - exists h2, h', log, cs. split; [exact H2|]. split; [exact Hl|]. split; [congruence|]. auto. }
  set (h0 := mkHeap [] (length (row_entries A row)) 0).
  destruct (initAll0 A B row HA HB Hin Hrow (zeroM A B) 0 0 h0 ltac:(reflexivity)) as (k1 & Hk1 & Hkv & Hkc & Hkp).
  destruct (Hmk k1 Hkv Hkp) as (k2 & k' & log & cs & Hk2 & Hkl & Hkc' & [HJ1 HJ2] & Hcs).
  rewrite psel_true in HJ1, HJ2. exists log, cs. split.
  { split; [exact HJ1|]. split; [exact HJ2|]. rewrite psel_true. exact Hcs. }
  intros M mb me h Hcap.
  destruct (initAll0 A B row HA HB Hin Hrow M mb me h Hcap) as (h1 & Hh1 & Hv & Hc & Hp).
  destruct (Hmk h1 Hv Hp) as (h2 & h' & log' & cs' & Hh2 & Hl & Hc' & _).
  exists h1, h2, h'. split; [exact Hh1|]. split; [exact Hh2|]. split; [|congruence].
  assert (hp h1 = hp k1) as He1.
  { unfold initAll in Hh1, Hk1. destruct (row_bounds A row) as [[ab ae]|]; [|discriminate]. cbn [bind] in *.
    unfold for_ in *. apply (for_hp (initG 0 A B M mb me)) with (n := ae - ab) (lo := ab) (h1 := h_clear h) (h2 := h_clear h0); [|reflexivity|exact Hh1|exact Hk1].
    intros. eapply initG_hp; eauto. }
  assert (hp h2 = hp k2) as He2.
  { rewrite <- He1 in Hk2. destruct (thr <? length (hp h1)); [|congruence]. unfold h_make in Hh2, Hk2. rewrite He1 in Hh2.
    destruct (make_heap (hp k1)); [|discriminate]. cbn [bind] in *. inversion Hh2; inversion Hk2; reflexivity. }
  rewrite (heap_ext h2 k2 He2), linLoop_recap, Hkl in Hl. cbn in Hl. inversion Hl; subst.
  rewrite (heap_ext h2 k2 He2), linLoop_recap, Hkl. reflexivity.
Qed.

Lemma linearRow_correct thr (A B : csr V) row : wf A -> wf B -> cols A = rows B -> row < rows A -> sorted_rows B ->
  exists l, StronglySorted lt (fst <$> l) /\ (forall j, j ∈ (fst <$> l) <-> j ∈ touched_cols A B row) /\
    (forall j v, (j, v) ∈ l -> sum_in_some_order mul add A B row j v) /\ length l <= length (row_prods A B row) /\
    forall M h dn cap L, length (row_entries A row) <= hcap h -> lrep cap L dn -> length dn + length l <= cap ->
      exists h' L', linearRow mul add thr A B M row h L = Ok (h', L', Some (length l)) /\ lrep cap L' (dn ++ l) /\ hcap h' = hcap h.
Proof.
  intros HA HB Hin Hrow HsB. destruct (lin_log thr A B row HA HB Hin Hrow HsB) as (log & ps & Hf & Hrun).
  destruct (grp_facts mul add (cols B) A B (zeroM A B) row (zeroM_compat A B HA HB Hin) ltac:(lia) _ _ _ Hf) as (_ & Hss & Hel & Hsum).
  exists (grp mul add ps). rewrite grp_keys. split; [exact Hss|]. split; [intros j; rewrite Hel; tauto|]. split; [exact Hsum|].
  split; [eapply log_length; eauto|].
  intros M h dn cap L Hcap HL Hroom. destruct (Hrun M 0 0 h Hcap) as (h1 & h2 & h' & H1 & H2 & H3 & Hc).
  unfold linearRow. rewrite H1, bind_Ok, H2, bind_Ok.
  destruct (linLoop_log (putL mul add A B) _ _ _ _ _ _ _ _ H3) as (l & Hl & Hact). cbn in Hl. subst l.
  destruct Hf as (Hr & Hs & _).
  destruct (putL_run mul add A B cap dn ps log [] L Hr Hs) as (L' & Hput & HL').
  { unfold grp. cbn. rewrite app_nil_r. exact HL. }
  { cbn [app]. rewrite <- (grp_length mul add). exact Hroom. }
  cbn [app] in *. change (length (grp mul add [])) with 0 in Hput. rewrite (Hact _ _ Hput), bind_Ok. exists h', L'. auto.
Qed.

Lemma maskedHeapRow_correct insp (A B M : csr V) row :
  compatible A B M -> row < rows A -> sorted_rows B -> StronglySorted lt (row_cols M row) -> insp_ok insp (nnz M) ->
  exists l, fst <$> l = fst <$> spec_row mul add A B M row /\
    (forall j v, (j, v) ∈ l -> sum_in_some_order mul add A B row j v) /\ length l <= length (row_prods A B row) /\
    forall h dn cap L, length (row_entries A row) <= hcap h -> lrep cap L dn -> length dn + length l <= cap ->
      exists h' L' c, maskedHeapRow mul add insp A B M row h L = Ok (h', L', c) /\ lrep cap L' (dn ++ l) /\ hcap h' = hcap h /\
        (c = Some (length l) \/ c = None /\ l = []) /\
        (c = if bool_decide (row_cols M row = [] /\ insp <> 0%N) then None else Some (length l)).
Proof.
  intros Hco Hrow HsB HsM Hok. destruct (row_bounds_wf M row) as (mb & me & Hmb & Hme & Hle & _ & Hrb); [apply Hco|rewrite (co_rows _ _ _ Hco); exact Hrow|].
  assert (length (row_cols M row) = me - mb) as Hml.
  { rewrite row_cols_length. apply row_entries_length; auto; [apply Hco|rewrite (co_rows _ _ _ Hco); exact Hrow]. }
  destruct (decide (row_cols M row = [])) as [Hemp|Hne].
  - exists []. split; [rewrite spec_row_keys, Hemp; reflexivity|]. split; [intros j v Hjv; inversion Hjv|]. split; [simpl; lia|].
    intros h dn cap L Hcap HL Hroom. rewrite app_nil_r. unfold maskedHeapRow. rewrite Hrb, bind_Ok.
    assert (mb = me) as -> by (rewrite Hemp in Hml; simpl in Hml; lia). rewrite Nat.eqb_refl.
    destruct (N.eqb_spec insp 0) as [->|Hi]; cbn [negb andb].
    + rewrite bool_decide_false by tauto. destruct Hco as [HA HB HM Hin _ _].
      destruct (initAll0 A B row HA HB Hin Hrow M me me h Hcap) as (h1 & -> & Hv & Hc & Hp). rewrite bind_Ok.
      destruct (h_make_spec h1) as (h2 & -> & Hp2 & _ & Hc2 & _). rewrite bind_Ok.
      assert (exists h', heapLoop (putL mul add A B) (heapFuel A B) 0 A B M me me h2 (0, L) = Ok (h', (0, L)) /\ hcap h' = hcap h2) as (h' & -> & Hc').
      { unfold heapFuel. destruct (nnz A * nnz B + 1) as [|f] eqn:Ef; [lia|]. cbn [heapLoop].
        destruct (Nat.eqb_spec (length (hp h2)) 0) as [He|He]; [eauto|].
        destruct (top_of h2) as (e & l0 & Hh & ->); [intros Hn; rewrite Hn in He; simpl in He; lia|].
        rewrite bind_Ok, Nat.sub_diag. cbn [adv_mask plus]. destruct (Nat.ltb_spec me me); [lia|]. rewrite bind_Ok.
        destruct (Nat.leb_spec me me); [|lia]. eauto. }
      rewrite bind_Ok. exists h', L, (Some 0). split; [reflexivity|]. split; [exact HL|]. split; [congruence|]. auto.
    + rewrite bool_decide_true by auto. exists h, L, None. auto 10.
  - destruct (mask_bounds M row) as (mb' & me' & Hmb' & Hme' & Hlt & _); [apply Hco|rewrite (co_rows _ _ _ Hco); exact Hrow|exact Hne|].
    assert (mb' = mb) as -> by congruence. assert (me' = me) as -> by congruence.
    destruct (plain_log mul add (cols B) insp A B M row mb me Hco Hrow HsB HsM ltac:(lia) Hok Hmb Hme Hlt) as (log & ps & Hf & Hrun).
    destruct (grp_facts mul add (cols B) A B M row Hco ltac:(lia) _ _ _ Hf) as (_ & Hss & Hel & Hsum).
    assert (Hkeys : first_touch (pcols ps) = fst <$> spec_row mul add A B M row).
    { rewrite spec_row_keys. apply sorted_lt_unique; [exact Hss|apply SSlt_filter, HsM|].
      intros j. rewrite Hel, elem_of_list_filter, bool_decide_eq_true. tauto. }
    exists (grp mul add ps). split; [rewrite grp_keys; exact Hkeys|]. split; [exact Hsum|]. split; [eapply log_length; eauto|].
    intros h dn cap L Hcap HL Hroom. destruct (Hrun (h_clear h) eq_refl Hcap) as (h1 & h' & Hi & Hl & _ & Hc & _).
    rewrite bool_decide_false by tauto.
    unfold maskedHeapRow. rewrite Hrb, bind_Ok. destruct (Nat.eqb_spec mb me) as [|_]; [lia|]. rewrite andb_false_r.
    pose proof (initAll_initHeap insp A B M row mb me h h1 (co_A _ _ _ Hco) Hrow Hcap Hi) as Hi'.
    destruct (initAll insp A B M row mb me h) as [h0|] eqn:E0; [|discriminate]. rewrite bind_Ok in Hi'. rewrite bind_Ok, Hi', bind_Ok.
    destruct (heapLoop_log (putL mul add A B) _ _ _ _ _ _ _ _ _ _ _ Hl) as (l & Hll & Hact). cbn in Hll. subst l.
    destruct Hf as (Hr & Hs & _).
    destruct (putL_run mul add A B cap dn ps log [] L Hr Hs) as (L' & Hput & HL').
    { unfold grp. cbn. rewrite app_nil_r. exact HL. }
    { cbn [app]. rewrite <- (grp_length mul add). exact Hroom. }
    cbn [app] in *. change (length (grp mul add [])) with 0 in Hput. rewrite (Hact _ _ Hput), bind_Ok. exists h', L', (Some (length (grp mul add ps))).
    split; [reflexivity|]. split; [exact HL'|]. split; [exact Hc|]. auto.
Qed.
End Rows.
