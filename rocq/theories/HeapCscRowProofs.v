(** One column of HeapSpGEMM on compressed columns. *)
From stdpp Require Import sorting.
From Verif Require Import KernelBase BaseProofs ComplProofs MsaProofs McaModel McaProofs HeapModel HeapPrimProofs HeapProofs
  HeapRowProofs HeapStatements HeapImplModel WorkProofs HeapImplRowProofs HeapImplProofs HeapCscModel.
From Verif Require Import Base Spec.

Section Loop.
Context {V : Type}.
Variables (A B : csc V) (i : nat).
Notation X := (csc_tr B).
Notation Y := (csc_tr A).
Hypotheses (HX : wf X) (HY : wf Y) (Hin : cols X = rows Y) (Hi : i < rows X) (HsY : sorted_rows Y).
Notation all := (row_prods X Y i).
Notation tt_ := (fun _ : nat => true).

Lemma initC_all cap b e : colptr B !! i = Some b -> colptr B !! (i + 1) = Some e -> length (row_entries X i) <= cap ->
  exists h, for_ b e (initC A B cap) [] = Ok h /\ Forall (valid X Y) h /\ rems X Y h ≡ₚ all.
Proof.
  intros Hb He Hcap.
  destruct (row_loop_inv X i b e (fun done h => Forall (valid X Y) h /\ length h <= length done /\ rems X Y h ≡ₚ rp Y done)
    (initC A B cap) [] HX Hi Hb He) as (h & Hf & Hv & _ & Hp).
  - split; [constructor|]. split; [simpl; lia|reflexivity].
  - intros done j k v rest h Hl Hj Hk Hva Hkc (Hv & Hlen & Hperm).
    assert (k < rows Y) as HkY by lia.
    assert (length done < length (row_entries X i)) as Hdl by (rewrite Hl, app_length; simpl; lia).
    unfold initC. change (rowids B) with (colids X). rewrite (get_Some _ _ _ Hk), bind_Ok.
    destruct (row_bounds_wf Y k HY HkY) as (bb & be & Hbb & Hbe & Hle & Hben & _).
    change (colptr A) with (rowptr Y). rewrite (get_Some _ _ _ Hbe), bind_Ok, (get_Some _ _ _ Hbb), bind_Ok.
    pose proof (row_entries_length Y k bb be HY HkY Hbb Hbe) as HlY.
    rewrite rp_snoc, app_length. simpl length.
    destruct (Nat.ltb_spec 0 (be - bb)) as [Hz|Hz].
    + destruct (row_entries_lookup_ex Y k bb be 0 HY HkY Hbb Hbe) as (key & w & Hkey & Hcc & _ & _); [lia|].
      rewrite Nat.add_0_r in Hcc. change (rowids A) with (colids Y). rewrite (get_Some _ _ _ Hcc), bind_Ok.
      destruct (Nat.ltb_spec (length h) cap); [|lia]. eexists. split; [reflexivity|].
      assert (valid X Y (mkEnt key j bb)) as Hval.
      { split. exists k, v, bb, be, 0. cbn [erunr eloc ek]. rewrite Nat.add_0_r. repeat split; auto. apply row_cols_lookup. eauto. }
      split; [apply Forall_app; auto|]. split; [rewrite app_length; simpl; lia|].
      rewrite (rems_perm X Y (h ++ [mkEnt key j bb]) (mkEnt key j bb :: h)) by (symmetry; apply Permutation_cons_append).
      rewrite rems_cons, Hperm, Permutation_app_comm. apply Permutation_app_head.
      unfold erem. cbn [erunr eloc]. rewrite Hk, Hva, Hbb, Nat.sub_diag. reflexivity.
    + exists h. split; [reflexivity|]. split; [exact Hv|]. split; [lia|].
      destruct (row_entries Y k); [|simpl in HlY; lia]. simpl. rewrite app_nil_r. exact Hperm.
  - exists h. rewrite rp_row in Hp. auto.
Qed.

Lemma heap_bad l : is_heap l -> root_bad l.
Proof. intros H j a b Hj Ht. apply H; lia. Qed.

Lemma popLoop_spec fuel : forall h cs log, length (rems X Y h) < fuel -> Forall (valid X Y) h -> is_heap h ->
  Jlog X Y tt_ cs log -> cs ++ rems X Y h ≡ₚ all -> (forall p e, p ∈ cs -> e ∈ h -> fst (fst p) <= ek e) ->
  exists log' cs', popLoop logact fuel A B h log = Ok log' /\ Jlog X Y tt_ cs' log' /\ cs' ≡ₚ all.
Proof.
  induction fuel as [|fuel IH]; intros h cs log Hf Hval Hheap HJ Hperm Hle; [lia|]. cbn [popLoop].
  destruct (Nat.eqb_spec (length h) 0) as [He|He].
  { apply nil_length_inv in He. subst h. unfold rems in Hperm. simpl in Hperm. rewrite app_nil_r in Hperm. eauto. }
  destruct h as [|e l0]; [simpl in He; lia|].
  assert (Hmin : forall e', e' ∈ e :: l0 -> ek e <= ek e') by (apply is_heap_min; [exact Hheap|reflexivity]).
  destruct (pop_heap_spec (e :: l0) e l0 eq_refl (heap_bad _ Hheap)) as (l1 & -> & Hp1 & Hh1). rewrite bind_Ok.
  rewrite app_length. simpl length. rewrite Nat.add_sub.
  assert (Hlast : (l1 ++ [e]) !! length l1 = Some e) by (rewrite lookup_app_r, Nat.sub_diag by lia; reflexivity).
  rewrite (get_Some _ _ _ Hlast), bind_Ok.
  inversion Hval as [|? ? Hve Hvl]; subst.
  destruct (valid_next X Y i HX HY Hin Hi HsY e Hve) as (inner & b & a & be & H1 & H2 & H3 & Hlt & H5 & Hnext).
  assert (Hhd : exists r, erem X Y e = (ek e, b, a) :: r).
  { destruct (eloc e + 1 <? be); [destruct Hnext as (key & _ & _ & _ & ->)|rewrite Hnext]; eauto. }
  rewrite rems_cons in Hperm, Hf.
  destruct (Jlog_act (fun x _ => x) (fun x _ => x) X Y i tt_ cs b a e log H2 H3 Hlt eq_refl HJ) as (log1 & Hact & HJ1).
  { intros p Hp. apply (Hle p e Hp). left. }
  { intros p Hp. rewrite <- Hperm. destruct Hhd as [r ->].
    apply elem_of_app in Hp as [Hp|Hp]; apply elem_of_app; [left; exact Hp|right].
    apply elem_of_list_singleton in Hp as ->. left. }
  rewrite Hact, bind_Ok. change (rowids B) with (colids X). rewrite (get_Some _ _ _ H1), bind_Ok.
  change (colptr A) with (rowptr Y). rewrite (get_Some _ _ _ H5), bind_Ok.
  assert (Hstep : forall l2 l3, l2 ≡ₚ l3 -> is_heap l2 -> Forall (valid X Y) l3 ->
    erem X Y e ++ rems X Y l0 ≡ₚ (ek e, b, a) :: rems X Y l3 -> (forall e', e' ∈ l3 -> ek e <= ek e') ->
    exists log' cs', popLoop logact fuel A B l2 log1 = Ok log' /\ Jlog X Y tt_ cs' log' /\ cs' ≡ₚ all).
  { intros l2 l3 Hp2 Hh2 Hv2 Hr2 Hm2. apply (IH l2 (cs ++ [(ek e, b, a)])).
    - rewrite (rems_perm X Y _ _ Hp2). rewrite Hr2 in Hf. simpl in Hf. lia.
    - rewrite Hp2. exact Hv2.
    - exact Hh2.
    - exact HJ1.
    - rewrite <- app_assoc, <- Hperm, Hr2. simpl. rewrite (rems_perm X Y _ _ Hp2). reflexivity.
    - intros p e' Hp He'. rewrite Hp2 in He'. apply elem_of_app in Hp as [Hp|Hp].
      + etransitivity; [|apply (Hm2 _ He')]. apply (Hle p e Hp). left.
      + apply elem_of_list_singleton in Hp as ->. apply (Hm2 _ He'). }
  destruct (eloc e + 1 <? be).
  - destruct Hnext as (key & Hk & Hkle & Hv' & Her). change (rowids A) with (colids Y). rewrite (get_Some _ _ _ Hk), bind_Ok.
    rewrite set_Ok by (rewrite app_length; simpl; lia). rewrite bind_Ok.
    rewrite insert_app_r_alt, Nat.sub_diag by lia. cbn [insert list_insert].
    set (e' := mkEnt key (erunr e) (eloc e + 1)) in *.
    destruct (push_heap_spec l1 e' Hh1) as (l2 & -> & Hp2 & Hh2). rewrite bind_Ok.
    apply (Hstep l2 (e' :: l0)).
    + rewrite Hp2, Hp1. reflexivity.
    + exact Hh2.
    + constructor; assumption.
    + rewrite Her, rems_cons. reflexivity.
    + intros x Hx. apply elem_of_cons in Hx as [->|Hx]; [exact Hkle|]. apply Hmin. right. exact Hx.
  - rewrite bind_Ok, take_app_alt by reflexivity. apply (Hstep l1 l0); auto.
    + rewrite Hnext. reflexivity.
    + intros x Hx. apply Hmin. right. exact Hx.
Qed.
End Loop.

Lemma popLoop_log {V S} (act : hentry -> S -> res S) fuel (A B : csc V) : forall h log log',
  popLoop logact fuel A B h log = Ok log' ->
  exists l, log' = log ++ l /\ forall s s', run act l s = Ok s' -> popLoop act fuel A B h s = Ok s'.
Proof.
  induction fuel as [|fuel IH]; intros h log log' Hl; [discriminate|].
  cbn [popLoop] in *. destruct (length h =? 0).
  { inversion Hl; subst. exists []. split; [rewrite app_nil_r; reflexivity|]. intros s s'; cbn; congruence. }
  destruct (pop_heap h) as [h1|]; [|discriminate]. cbn [bind] in *.
  destruct (get h1 _) as [e|]; [|discriminate]. cbn [bind] in *.
  unfold logact in Hl at 1. cbn [bind] in *.
  destruct (get (rowids B) _) as [inner|]; [|discriminate]. cbn [bind] in *.
  destruct (get (colptr A) _) as [be|]; [|discriminate]. cbn [bind] in *.
  match type of Hl with bind ?x _ = _ => destruct x as [h2|] end; [|discriminate]. cbn [bind] in *.
  apply IH in Hl as (l & -> & H). exists (e :: l). split; [rewrite <- app_assoc; reflexivity|].
  intros s s'. cbn [foldM]. destruct (act e s) as [s1|]; [|discriminate]. cbn [bind]. apply H.
Qed.

(** *** The output of one column: [n] cells from [o] on, [dn] written so far *)
Record crep {V} (o n : nat) (L0 L : lout V) (dn : list (nat * V)) : Prop := mkCrep {
  cr_ids : length (lo_ids L) = length (lo_ids L0);
  cr_vals : length (lo_vals L) = length (lo_vals L0);
  cr_room : length dn <= n;
  cr_cell : forall p c v, dn !! p = Some (c, v) -> lo_ids L !! (o + p) = Some c /\ lo_vals L !! (o + p) = Some (Some v);
  cr_else : forall q, q < o \/ o + n <= q -> lo_ids L !! q = lo_ids L0 !! q /\ lo_vals L !! q = lo_vals L0 !! q }.

Section Put.
Context {V : Type} (mul add : V -> V -> V).
Local Notation mulf := (fun b a => mul a b).
Local Notation prod := (nat * V * V)%type.
Local Notation pcols := (fmap (fun p : prod => fst (fst p))).
Local Notation grp := (grp mulf add).

Lemma crep_push o n (L0 L : lout V) dn c v : crep o n L0 L dn -> length dn < n -> o + n <= length (lo_ids L0) -> o + n <= length (lo_vals L0) ->
  crep o n L0 (mkLout (<[o + length dn := c]> (lo_ids L)) (<[o + length dn := Some v]> (lo_vals L))) (dn ++ [(c, v)]).
Proof.
  intros [H1 H2 H3 H4 H5] Hn Hl1 Hl2. split; cbn [lo_ids lo_vals]; rewrite ?insert_length, ?app_length; simpl; try lia.
  - intros p c' v' Hp. apply lookup_app_Some in Hp as [Hp|[Hge Hp]].
    + pose proof (lookup_lt_Some _ _ _ Hp). rewrite !list_lookup_insert_ne by lia. auto.
    + apply list_lookup_singleton_Some in Hp as [Hz Hp]. inversion Hp; subst. replace (o + p) with (o + length dn) by lia.
      rewrite !list_lookup_insert by lia. auto.
  - intros q Hq. rewrite !list_lookup_insert_ne by lia. apply H5, Hq.
Qed.

Lemma crep_upd o n (L0 L : lout V) dn c v v' : crep o n L0 L (dn ++ [(c, v)]) ->
  crep o n L0 (mkLout (lo_ids L) (<[o + length dn := Some v']> (lo_vals L))) (dn ++ [(c, v')]).
Proof.
  intros [H1 H2 H3 H4 H5]. rewrite app_length in *. simpl in *.
  assert (Hin : (dn ++ [(c, v)]) !! length dn = Some (c, v)) by (rewrite lookup_app_r, Nat.sub_diag by lia; reflexivity).
  destruct (H4 _ _ _ Hin) as [Hi Hv]. pose proof (lookup_lt_Some _ _ _ Hv) as Hvl.
  split; cbn [lo_ids lo_vals]; rewrite ?insert_length, ?app_length; simpl; try lia.
  - intros p c' w Hp. apply lookup_app_Some in Hp as [Hp|[Hge Hp]].
    + pose proof (lookup_lt_Some _ _ _ Hp). rewrite !list_lookup_insert_ne by lia. apply H4. apply lookup_app_l_Some, Hp.
    + apply list_lookup_singleton_Some in Hp as [Hz Hp]. inversion Hp; subst. replace (o + p) with (o + length dn) by lia.
      split; [exact Hi|]. rewrite list_lookup_insert by exact Hvl. reflexivity.
  - intros q Hq. rewrite list_lookup_insert_ne by lia. apply H5, Hq.
Qed.

Lemma putC_run (A B : csc V) st base n L0 rest : base <= st -> (st - base) + n <= length (lo_ids L0) -> (st - base) + n <= length (lo_vals L0) ->
  forall log done L, Forall2 (is_root (csc_tr B) (csc_tr A)) log rest ->
  StronglySorted le (pcols (done ++ rest)) -> crep (st - base) n L0 L (grp done) ->
  length (first_touch (pcols (done ++ rest))) <= n ->
  exists L', run (putC mul add A B st base) log (st + length (grp done), L) = Ok (st + length (grp (done ++ rest)), L') /\
    crep (st - base) n L0 L' (grp (done ++ rest)).
Proof.
  intros Hbase Hl1 Hl2.
  induction rest as [|[[c b] a] rest IH]; intros log done L Hr Hs HL Hcap.
  { inversion Hr; subst. rewrite app_nil_r. exists L. split; [reflexivity|exact HL]. }
  inversion Hr as [|e x log' y (He & Hb & Ha) Hr' ]; subst. cbn [fst snd] in *.
  replace (done ++ (c, b, a) :: rest) with ((done ++ [(c, b, a)]) ++ rest) in * by (rewrite <- app_assoc; reflexivity).
  assert (Hs1 : StronglySorted le (pcols (done ++ [(c, b, a)]))).
  { clear -Hs. rewrite fmap_app in Hs. revert Hs. generalize (pcols (done ++ [(c, b, a)])). intros l.
    induction l as [|d l IH]; intros Hs; [constructor|]. simpl in Hs. inversion Hs as [|? ? H1 H2]; subst.
    constructor; [auto|]. apply List.Forall_app in H2. tauto. }
  cbn [foldM]. unfold putC at 1. change (c_values A) with (values (csc_tr A)). change (c_values B) with (values (csc_tr B)).
  rewrite (get_Some _ _ _ Ha), bind_Ok, (get_Some _ _ _ Hb), bind_Ok, He. unfold diff at 1.
  destruct (Nat.leb_spec base (st + length (grp done))) as [_|]; [|lia]. rewrite bind_Ok.
  replace (st + length (grp done) - base) with (st - base + length (grp done)) by lia.
  destruct (decide (c ∈ pcols done)) as [Hin|Hn].
  - destruct (grp_snoc_old mulf add done c b a Hs1 Hin) as (l0 & v & Hg & Hg'). rewrite Hg in HL |- *.
    rewrite app_length. simpl length.
    destruct (Nat.ltb_spec st (st + (length l0 + 1))) as [_|Hz]; [|lia].
    replace (st - base + (length l0 + 1) - 1) with (st - base + length l0) by lia.
    assert (Hcell : (l0 ++ [(c, v)]) !! length l0 = Some (c, v)) by (rewrite lookup_app_r, Nat.sub_diag by lia; reflexivity).
    destruct (cr_cell _ _ _ _ _ HL _ _ _ Hcell) as [Hi Hv].
    rewrite (get_Some _ _ _ Hi), bind_Ok, bind_Ok, Nat.eqb_refl, (getI_Some _ _ _ Hv), bind_Ok.
    rewrite set_Ok by (eapply lookup_lt_Some; eauto). rewrite !bind_Ok.
    replace (st + (length l0 + 1)) with (st + length (grp (done ++ [(c, b, a)]))) by (rewrite Hg', app_length; reflexivity).
    apply (IH log' (done ++ [(c, b, a)])); auto. rewrite Hg'. apply (crep_upd _ _ _ _ _ _ _ _ HL).
  - pose proof (grp_snoc_new mulf add done c b a Hn) as Hg'.
    assert (length (grp done) < n) as Hroom.
    { rewrite grp_length. rewrite (fmap_app _ (done ++ [(c, b, a)]) rest) in Hcap.
      pose proof (first_touch_prefix_le (pcols (done ++ [(c, b, a)])) (pcols rest)) as Hle.
      rewrite (fmap_app _ done [(c, b, a)]) in Hle at 1. cbn [fmap list_fmap fst] in Hle.
      rewrite first_touch_snoc in Hle.
      rewrite decide_False in Hle by exact Hn. rewrite app_length in Hle. simpl in Hle, Hcap |- *. lia. }
    assert ((if st <? st + length (grp done) then k <- get (lo_ids L) (st - base + length (grp done) - 1) ;; Ok (k =? c) else Ok false) = Ok false) as Hsame.
    { destruct (Nat.ltb_spec st (st + length (grp done))) as [Hz|]; [|reflexivity].
      assert (exists g0 k w, grp done = g0 ++ [(k, w)]) as (g0 & k & w & Hgk).
      { destruct (grp done) as [|[k w] g0 _] using rev_ind; [simpl in Hz; lia|]. eauto. }
      assert (Hcell : grp done !! length g0 = Some (k, w)) by (rewrite Hgk, lookup_app_r, Nat.sub_diag by lia; reflexivity).
      destruct (cr_cell _ _ _ _ _ HL _ _ _ Hcell) as [Hi _].
      replace (st - base + length (grp done) - 1) with (st - base + length g0) by (rewrite Hgk, app_length; simpl; lia).
      rewrite (get_Some _ _ _ Hi), bind_Ok. destruct (Nat.eqb_spec k c) as [->|]; [|reflexivity]. exfalso. apply Hn.
      rewrite <- elem_of_first_touch, <- (grp_keys mulf add), Hgk, fmap_app. apply elem_of_app. right. left. }
    rewrite Hsame, bind_Ok.
    rewrite set_Ok by (rewrite (cr_vals _ _ _ _ _ HL); lia). rewrite bind_Ok.
    rewrite set_Ok by (rewrite (cr_ids _ _ _ _ _ HL); lia). rewrite !bind_Ok.
    replace (st + length (grp done) + 1) with (st + length (grp (done ++ [(c, b, a)]))) by (rewrite Hg', app_length; simpl; lia).
    apply (IH log' (done ++ [(c, b, a)])); auto. rewrite Hg'. apply crep_push; assumption.
Qed.

Lemma heapCol_correct (A B : csc V) i : wf_csc A -> wf_csc B -> c_rows B = c_cols A -> i < c_cols B -> sorted_cols A ->
  exists l, lin_row mulf add (csc_tr B) (csc_tr A) i l /\ length l <= nprods (csc_tr B) (csc_tr A) i /\
    forall cs ct cap st base L, length (col_entries B i) <= cap -> cs !! i = Some st -> cs !! ct = Some base -> base <= st ->
      st - base + nprods (csc_tr B) (csc_tr A) i <= length (lo_ids L) -> st - base + nprods (csc_tr B) (csc_tr A) i <= length (lo_vals L) ->
      exists L', heapCol mul add A B cs ct cap i st L = Ok (st + length l, L') /\ crep (st - base) (nprods (csc_tr B) (csc_tr A) i) L L' l.
Proof.
  intros HA HB Hin Hi HsA.
  set (X := csc_tr B). set (Y := csc_tr A).
  assert (HsY : sorted_rows Y) by exact HsA.
  destruct (row_bounds_wf X i HB Hi) as (b & e & Hb & He & _).
  set (N := length (row_entries X i)).
  destruct (initC_all A B i HB HA Hin Hi N b e Hb He ltac:(reflexivity)) as (h & Hh & Hv & Hp).
  fold X Y in Hv, Hp.
  destruct (make_heap_spec h) as (h' & Hm & Hp' & Hheap).
  destruct (popLoop_spec A B i HB HA Hin Hi HsY (c_nnz B * c_nnz A + 1) h' [] []) as (log & ps & Hl & [HJ1 HJ2] & Hps).
  { fold X Y. rewrite (rems_perm X Y _ _ Hp'), Hp.
    apply (fuel_ok (cols Y) X Y (zeroM X Y) i 0 1 (zeroM_compat X Y HB HA Hin) Hi ltac:(lia) ltac:(lia)). reflexivity. }
  { rewrite Hp'. exact Hv. }
  { exact Hheap. }
  { apply Jlog_nil. }
  { fold X Y. rewrite (rems_perm X Y _ _ Hp'). exact Hp. }
  { intros p q H. inversion H. }
  rewrite psel_true in HJ1, HJ2.
  assert (Hf : log_facts X Y i (fun _ => true) log ps) by (split; [exact HJ1|]; split; [exact HJ2|]; rewrite psel_true; exact Hps).
  destruct (grp_facts mulf add (cols Y) X Y (zeroM X Y) i (zeroM_compat X Y HB HA Hin) ltac:(lia) _ _ _ Hf) as (_ & Hss & Hel & Hsum).
  assert (Hlen : length (grp ps) <= nprods X Y i) by (rewrite nprods_row_prods; eapply log_length; eauto).
  exists (grp ps). split. { split; [rewrite grp_keys; exact Hss|]. split; [|exact Hsum]. intros j. rewrite grp_keys, Hel. tauto. }
  split; [exact Hlen|].
  intros cs ct cap st base L Hcap Hst Hbs Hle Hl1 Hl2. unfold heapCol.
  change (rowptr X) with (colptr B) in Hb, He.
  rewrite (get_Some _ _ _ Hb), bind_Ok, (get_Some _ _ _ He), bind_Ok.
  assert (Hcaps : forall c1 c2 n lo g r, c1 <= c2 -> for_n n lo (initC A B c1) g = Ok r -> for_n n lo (initC A B c2) g = Ok r).
  { intros c1 c2 n. induction n as [|n IH]; intros lo g r Hc; cbn [for_n]; [auto|].
    destruct (initC A B c1 lo g) as [g1|] eqn:E; [|discriminate]. cbn [bind]. intros Hr.
    enough (initC A B c2 lo g = Ok g1) as -> by (cbn [bind]; eapply IH; eauto).
    revert E. unfold initC. destruct (get (rowids B) lo) as [k|]; [|discriminate]. cbn [bind].
    destruct (get (colptr A) (k + 1)); [|discriminate]. cbn [bind]. destruct (get (colptr A) k); [|discriminate]. cbn [bind].
    destruct (0 <? _); [|auto]. destruct (get (rowids A) _); [|discriminate]. cbn [bind].
    destruct (Nat.ltb_spec (length g) c1); [|discriminate]. destruct (Nat.ltb_spec (length g) c2); [auto|lia]. }
  unfold for_ in Hh |- *. rewrite (Hcaps N cap _ _ _ _ Hcap Hh), bind_Ok, Hm, bind_Ok, (get_Some _ _ _ Hst), bind_Ok, (get_Some _ _ _ Hbs), bind_Ok.
  destruct (popLoop_log (putC mul add A B st base) _ _ _ _ _ _ Hl) as (l & El & Hact). cbn in El. subst l.
  destruct (putC_run A B st base (nprods X Y i) L ps Hle Hl1 Hl2 log [] L HJ1 HJ2) as (L' & Hput & HL').
  { unfold HeapRowProofs.grp. cbn. split; [reflexivity..|simpl; lia| |auto]. intros p c v H. apply lookup_lt_Some in H. simpl in H. lia. }
  { cbn [app]. rewrite <- (grp_length mulf add). exact Hlen. }
  cbn [app] in *. change (length (grp [])) with 0 in Hput. rewrite Nat.add_0_r in Hput. rewrite (Hact _ _ Hput). exists L'. auto.
Qed.
End Put.
