(** Linear probing without deletion. *)
From Verif Require Import LpModel BaseProofs HashTableProofs ComplProofs.
From Verif Require Import Base Spec.

Section Lp.
Context (w : N) (kk : nat).
Notation sz := (2 ^ kk).
Notation home := (hslot w sz).

Lemma sz_pos : 0 < sz.
Proof. assert (2 ^ kk <> 0) by (apply Nat.pow_nonzero; lia). lia. Qed.
Lemma home_lt k : home k < sz.
Proof. apply hslot_lt, sz_pos. Qed.
Lemma hnext_mod i : hnext sz i = (i + 1) mod sz.
Proof. unfold hnext. replace (sz - 1) with (Nat.ones kk) by (rewrite Nat.ones_equiv; lia). apply Nat.land_ones. Qed.

(** The slot [d] steps behind [h]. *)
Definition sl (h d : nat) : nat := (h + d) mod sz.
Lemma sl_lt h d : sl h d < sz.
Proof. apply Nat.mod_upper_bound. pose proof sz_pos. lia. Qed.
Lemma sl_0 h : h < sz -> sl h 0 = h.
Proof. intros H. unfold sl. rewrite Nat.add_0_r. apply Nat.mod_small, H. Qed.
Lemma sl_next h d : hnext sz (sl h d) = sl h (d + 1).
Proof. rewrite hnext_mod. unfold sl. pose proof sz_pos. rewrite Nat.add_mod_idemp_l by lia. f_equal. lia. Qed.
Lemma sl_inj h d e : d < sz -> e < sz -> sl h d = sl h e -> d = e.
Proof.
  intros Hd He E. unfold sl in E. pose proof sz_pos as Hp.
  pose proof (Nat.div_mod_eq (h + d) sz) as E1. pose proof (Nat.div_mod_eq (h + e) sz) as E2. rewrite E in E1.
  set (q1 := (h + d) / sz) in *. set (q2 := (h + e) / sz) in *. set (r := (h + e) mod sz) in *. set (s := 2 ^ kk) in *.
  assert (q1 = q2) by nia. nia.
Qed.
Lemma sl_surj h p : h < sz -> p < sz -> exists d, d < sz /\ sl h d = p.
Proof.
  intros Hh Hp. destruct (Nat.le_gt_cases h p) as [H|H].
  - exists (p - h). split; [lia|]. unfold sl. replace (h + (p - h)) with p by lia. apply Nat.mod_small, Hp.
  - exists (p + sz - h). split; [lia|]. unfold sl. replace (h + (p + sz - h)) with (p + 1 * sz) by lia. rewrite Nat.mod_add by lia. apply Nat.mod_small, Hp.
Qed.

(** The first [sz] cells hold the keys [content]. *)
Record tabOk (keys : list (option nat)) (content : list nat) : Prop := mkTab {
  tb_len : sz <= length keys;
  tb_nd : NoDup content;
  tb_in : forall p k, p < sz -> keys !! p = Some (Some k) -> k ∈ content;
  tb_at : forall k, k ∈ content -> exists d, d < sz /\ keys !! sl (home k) d = Some (Some k) /\
    forall e, e < d -> exists k', keys !! sl (home k) e = Some (Some k');
  tb_inj : forall p q k, p < sz -> q < sz -> keys !! p = Some (Some k) -> keys !! q = Some (Some k) -> p = q }.

Lemma tabOk_empty keys : sz <= length keys -> (forall p, p < sz -> keys !! p = Some None) -> tabOk keys [].
Proof.
  intros Hl H. constructor; [exact Hl|constructor| | |].
  - intros p k Hp E. rewrite (H p Hp) in E. discriminate.
  - intros k Hk. inversion Hk.
  - intros p q k Hp _ E. rewrite (H p Hp) in E. discriminate.
Qed.

Lemma lpProbe_walk keys key h D : (keys !! sl h D = Some None \/ keys !! sl h D = Some (Some key)) ->
  (forall e, e < D -> exists k', keys !! sl h e = Some (Some k') /\ k' <> key) ->
  forall fuel d, d <= D -> D - d < fuel -> lpProbe fuel keys sz key (sl h d) = Ok (sl h D).
Proof.
  intros HD Hb. induction fuel as [|fuel IH]; intros d Hd Hf; [lia|]. cbn [lpProbe].
  destruct (decide (d = D)) as [->|Hne].
  - destruct HD as [E|E]; rewrite (get_Some _ _ _ E), bind_Ok; [reflexivity|]. rewrite Nat.eqb_refl. reflexivity.
  - destruct (Hb d ltac:(lia)) as (k' & E & Hk). rewrite (get_Some _ _ _ E), bind_Ok. destruct (Nat.eqb_spec k' key); [contradiction|].
    rewrite sl_next. apply IH; lia.
Qed.

(** All slots but those of the keys are empty. *)
Lemma tab_slot keys content p : tabOk keys content -> p < sz -> keys !! p = Some None \/ exists k, keys !! p = Some (Some k) /\ k ∈ content.
Proof.
  intros H Hp. destruct (lookup_lt_is_Some_2 keys p) as [[k|] E]; [pose proof (tb_len _ _ H); lia| |left; exact E].
  right. exists k. split; [exact E|]. eapply tb_in; eassumption.
Qed.

Definition slotsOf (keys : list (option nat)) : list nat := omap id (take sz keys).
Lemma slotsOf_elem keys k : sz <= length keys -> k ∈ slotsOf keys <-> exists p, p < sz /\ keys !! p = Some (Some k).
Proof.
  intros Hl. unfold slotsOf. rewrite elem_of_list_omap. split.
  - intros (x & Hx & E). simpl in E. subst x. apply elem_of_list_lookup in Hx as [p Hp]. apply lookup_take_Some in Hp as [Hp Hlt]. eauto.
  - intros (p & Hp & E). exists (Some k). split; [|reflexivity]. apply elem_of_list_lookup. exists p. apply lookup_take_Some. auto.
Qed.
Lemma slotsOf_NoDup keys : (forall p q k, p < sz -> q < sz -> keys !! p = Some (Some k) -> keys !! q = Some (Some k) -> p = q) -> NoDup (slotsOf keys).
Proof.
  intros Hinj. unfold slotsOf.
  assert (H : forall p q k, take sz keys !! p = Some (Some k) -> take sz keys !! q = Some (Some k) -> p = q).
  { intros p q k Hp Hq. apply lookup_take_Some in Hp as [Hp Hlp]. apply lookup_take_Some in Hq as [Hq Hlq]. eapply Hinj; eassumption. }
  clear Hinj. induction (take sz keys) as [|x l IH]; [constructor|].
  assert (Hl : NoDup (omap id l)) by (apply IH; intros p q k Hp Hq; assert (Datatypes.S p = Datatypes.S q) by (eapply H; simpl; eassumption); lia).
  destruct x as [k|]; [|exact Hl]. change (omap id (Some k :: l)) with (k :: omap id l). apply NoDup_cons. split; [|exact Hl].
  intros Hin. apply elem_of_list_omap in Hin as (x & Hx & E). simpl in E. subst x. apply elem_of_list_lookup in Hx as [p Hp].
  specialize (H 0 (Datatypes.S p) k eq_refl Hp). discriminate.
Qed.
Lemma slotsOf_perm keys content : tabOk keys content -> slotsOf keys ≡ₚ content.
Proof.
  intros H. apply NoDup_Permutation; [apply slotsOf_NoDup, (tb_inj _ _ H)|apply (tb_nd _ _ H)|]. intros k.
  rewrite slotsOf_elem by apply (tb_len _ _ H). split.
  - intros (p & Hp & E). eapply tb_in; eassumption.
  - intros Hk. destruct (tb_at _ _ H k Hk) as (d & Hd & E & _). exists (sl (home k) d). split; [apply sl_lt|exact E].
Qed.

Lemma slotsOf_full keys : sz <= length keys -> (forall p, p < sz -> keys !! p <> Some None) -> length (slotsOf keys) = sz.
Proof.
  intros Hl H. unfold slotsOf. transitivity (length (take sz keys)); [|rewrite take_length; lia].
  assert (Hf : forall p, take sz keys !! p <> Some None).
  { intros p E. apply lookup_take_Some in E as [E Hp]. exact (H p Hp E). }
  clear H Hl. induction (take sz keys) as [|[k|] l IH]; [reflexivity| |].
  - change (omap id (Some k :: l)) with (k :: omap id l). simpl. f_equal. apply IH. intros p. exact (Hf (Datatypes.S p)).
  - destruct (Hf 0 eq_refl).
Qed.

(** A key that is there is found. *)
Lemma lpSlot_present keys content key : tabOk keys content -> key ∈ content ->
  exists p, p < sz /\ keys !! p = Some (Some key) /\ lpSlot w keys sz key = Ok p.
Proof.
  intros H Hk. destruct (tb_at _ _ H key Hk) as (d & Hd & E & Hc). exists (sl (home key) d). split; [apply sl_lt|]. split; [exact E|].
  unfold lpSlot. rewrite <- (sl_0 (home key)) at 1 by apply home_lt. apply lpProbe_walk; [right; exact E| |lia|lia].
  intros e He. destruct (Hc e He) as [k' E']. exists k'. split; [exact E'|]. intros ->.
  pose proof (tb_inj _ _ H _ _ key (sl_lt _ _) (sl_lt _ _) E E') as Es. apply sl_inj in Es; lia.
Qed.

(** A key that is not there leads to an empty slot, if there is one. *)
Lemma lpSlot_absent keys content key : tabOk keys content -> key ∉ content -> length content < sz ->
  exists p, p < sz /\ keys !! p = Some None /\ lpSlot w keys sz key = Ok p /\ tabOk (<[p := Some key]> keys) (content ++ [key]).
Proof.
  intros H Hk Hlen. pose proof (tb_len _ _ H) as Hl.
  assert (Hex : exists D, D < sz /\ keys !! sl (home key) D = Some None /\ forall e, e < D -> exists k', keys !! sl (home key) e = Some (Some k') /\ k' ∈ content).
  { assert (Hem : exists p, p < sz /\ keys !! p = Some None).
    { destruct (decide (Exists (fun p => keys !! p = Some None) (seq 0 sz))) as [He|He].
      - apply Exists_exists in He as (p & Hp & E). apply elem_of_list_In, in_seq in Hp. exists p. split; [lia|exact E].
      - exfalso. assert (Hf : length (slotsOf keys) = sz).
        { apply slotsOf_full; [exact Hl|]. intros p Hp E. apply He, Exists_exists. exists p. split; [apply elem_of_list_In, in_seq; lia|exact E]. }
        rewrite (slotsOf_perm _ _ H) in Hf. lia. }
    destruct Hem as (p & Hp & E). destruct (sl_surj (home key) p (home_lt key) Hp) as (D0 & HD0 & ED). rewrite <- ED in E. clear p Hp ED.
    revert HD0 E. induction D0 as [D0 IH] using lt_wf_ind. intros HD0 E.
    destruct (decide (Exists (fun e => keys !! sl (home key) e = Some None) (seq 0 D0))) as [He|He].
    - apply Exists_exists in He as (e & Hee & Ee). apply elem_of_list_In, in_seq in Hee. apply (IH e); [lia|lia|exact Ee].
    - exists D0. split; [exact HD0|]. split; [exact E|]. intros e Hee. destruct (tab_slot _ _ (sl (home key) e) H (sl_lt _ _)) as [Ee|Ee]; [|exact Ee].
      destruct He. apply Exists_exists. exists e. split; [apply elem_of_list_In, in_seq; lia|exact Ee]. }
  destruct Hex as (D & HD & E & Hb). set (p := sl (home key) D) in *. assert (Hp : p < sz) by apply sl_lt. exists p. split; [exact Hp|]. split; [exact E|]. split.
  { unfold lpSlot. rewrite <- (sl_0 (home key)) at 1 by apply home_lt. apply lpProbe_walk; [left; exact E| |lia|lia].
    intros e He. destruct (Hb e He) as (k' & E' & Hin). exists k'. split; [exact E'|]. intros ->. contradiction. }
  assert (Hat : forall q x, keys !! q = Some (Some x) -> <[p:=Some key]> keys !! q = Some (Some x)).
  { intros q x Eq. destruct (decide (q = p)) as [->|Hne]; [congruence|]. rewrite list_lookup_insert_ne by congruence. exact Eq. }
  constructor.
  - rewrite insert_length. exact Hl.
  - apply NoDup_app. split; [apply (tb_nd _ _ H)|]. split; [|apply NoDup_singleton]. intros x Hx Hx'. apply elem_of_list_singleton in Hx'. subst x. contradiction.
  - intros q k Hq Eq. apply elem_of_app. destruct (decide (q = p)) as [->|Hne].
    + rewrite list_lookup_insert in Eq by lia. injection Eq as <-. right. left.
    + rewrite list_lookup_insert_ne in Eq by congruence. left. eapply tb_in; eassumption.
  - intros k Hin. apply elem_of_app in Hin as [Hin|Hin].
    + destruct (tb_at _ _ H k Hin) as (d & Hd & Ed & Hc). exists d. split; [exact Hd|]. split; [apply Hat, Ed|].
      intros e He. destruct (Hc e He) as [k' E']. exists k'. apply Hat, E'.
    + apply elem_of_list_singleton in Hin as ->. exists D. split; [exact HD|]. split; [apply list_lookup_insert; lia|].
      intros e He. destruct (Hb e He) as (k' & E' & _). exists k'. apply Hat, E'.
  - intros q r k Hq Hr Eq Er.
    assert (Hno : forall q, q < sz -> keys !! q <> Some (Some key)) by (intros q' Hq' E'; apply Hk; eapply tb_in; eassumption).
    destruct (decide (q = p)) as [->|Hqp]; destruct (decide (r = p)) as [->|Hrp]; [reflexivity| | |].
    + rewrite list_lookup_insert in Eq by lia. injection Eq as <-. rewrite list_lookup_insert_ne in Er by congruence. destruct (Hno r Hr Er).
    + rewrite list_lookup_insert in Er by lia. injection Er as <-. rewrite list_lookup_insert_ne in Eq by congruence. destruct (Hno q Hq Eq).
    + rewrite list_lookup_insert_ne in Eq, Er by congruence. eapply tb_inj; eassumption.
Qed.

Lemma lpInsert_present keys content key : tabOk keys content -> key ∈ content ->
  exists p, p < sz /\ keys !! p = Some (Some key) /\ lpInsert w keys sz key = Ok (keys, p, false).
Proof.
  intros H Hk. destruct (lpSlot_present keys content key H Hk) as (p & Hp & E & Es). exists p. split; [exact Hp|]. split; [exact E|].
  unfold lpInsert. rewrite Es, bind_Ok, (get_Some _ _ _ E). reflexivity.
Qed.
Lemma lpInsert_absent keys content key : tabOk keys content -> key ∉ content -> length content < sz ->
  exists p, p < sz /\ keys !! p = Some None /\ lpInsert w keys sz key = Ok (<[p := Some key]> keys, p, true) /\ tabOk (<[p := Some key]> keys) (content ++ [key]).
Proof.
  intros H Hk Hlen. destruct (lpSlot_absent keys content key H Hk Hlen) as (p & Hp & E & Es & H'). exists p. split; [exact Hp|]. split; [exact E|].
  split; [|exact H']. unfold lpInsert. rewrite Es, bind_Ok, (get_Some _ _ _ E), bind_Ok, set_Ok by (pose proof (tb_len _ _ H); lia). reflexivity.
Qed.
Lemma lpFind_present keys content key : tabOk keys content -> key ∈ content ->
  exists p, p < sz /\ keys !! p = Some (Some key) /\ lpFind w keys sz key = Ok (Some p).
Proof.
  intros H Hk. destruct (lpSlot_present keys content key H Hk) as (p & Hp & E & Es). exists p. split; [exact Hp|]. split; [exact E|].
  unfold lpFind. rewrite Es, bind_Ok, (get_Some _ _ _ E). reflexivity.
Qed.
Lemma lpFind_absent keys content key : tabOk keys content -> key ∉ content -> length content < sz -> lpFind w keys sz key = Ok None.
Proof.
  intros H Hk Hlen. destruct (lpSlot_absent keys content key H Hk Hlen) as (p & Hp & E & Es & _).
  unfold lpFind. rewrite Es, bind_Ok, (get_Some _ _ _ E). reflexivity.
Qed.

(** ** The keys after inserting a list of keys into an empty table *)
Definition insKeys (ks : list nat) (keys : list (option nat)) : res (list (option nat)) :=
  foldM (fun keys k => r <- lpInsert w keys sz k ;; Ok (fst (fst r))) ks keys.
Definition keysOf (ks : list nat) : list (option nat) := match insKeys ks (replicate sz None) with Ok keys => keys | Err _ => [] end.
(** The keys in slot order. *)
Definition slotOrder (ks : list nat) : list nat := slotsOf (keysOf ks).

Lemma insert_step keys done k : tabOk keys (first_touch done) -> length (first_touch (done ++ [k])) <= sz ->
  exists p, p < sz /\ tabOk (<[p := Some k]> keys) (first_touch (done ++ [k])) /\
    (k ∈ done -> keys !! p = Some (Some k) /\ lpInsert w keys sz k = Ok (keys, p, false)) /\
    (k ∉ done -> keys !! p = Some None /\ lpInsert w keys sz k = Ok (<[p := Some k]> keys, p, true)).
Proof.
  intros H Hlen. rewrite first_touch_snoc in *. destruct (decide (k ∈ done)) as [Hk|Hk].
  - destruct (lpInsert_present keys _ k H ltac:(apply elem_of_first_touch; exact Hk)) as (p & Hp & E & Ei). exists p. split; [exact Hp|].
    rewrite list_insert_id by exact E. split; [exact H|]. split; [auto|contradiction].
  - destruct (lpInsert_absent keys _ k H ltac:(rewrite elem_of_first_touch; exact Hk)) as (p & Hp & E & Ei & H').
    { rewrite app_length in Hlen. simpl in Hlen. lia. }
    exists p. split; [exact Hp|]. split; [exact H'|]. split; [contradiction|auto].
Qed.

Lemma insKeys_ok ks keys : tabOk keys [] -> length (first_touch ks) <= sz -> exists keys', insKeys ks keys = Ok keys' /\ tabOk keys' (first_touch ks) /\ length keys' = length keys.
Proof.
  intros H Hlen. destruct (foldM_inv (fun done k' => tabOk k' (first_touch done) /\ length k' = length keys) (fun keys k => r <- lpInsert w keys sz k ;; Ok (fst (fst r))) ks keys) as (keys' & E & Hk & Hl).
  - split; [exact H|reflexivity].
  - intros done k rest s Hks [Hs Hls].
    destruct (insert_step s done k Hs) as (p & Hp & Ht & Hin & Hout).
    { assert (Hle : forall l r, length (first_touch l) <= length (first_touch (l ++ r))).
      { intros l r. revert l. induction r as [|x r IH]; intros l; [rewrite app_nil_r; lia|]. replace (l ++ x :: r) with ((l ++ [x]) ++ r) by (rewrite <- app_assoc; reflexivity).
        etransitivity; [|apply IH]. rewrite first_touch_snoc. destruct (decide _); [lia|]. rewrite app_length. lia. }
      specialize (Hle (done ++ [k]) rest). rewrite <- app_assoc in Hle. simpl in Hle. rewrite <- Hks in Hle. lia. }
    destruct (decide (k ∈ done)) as [Hd|Hd].
    + destruct (Hin Hd) as [Ep ->]. exists s. split; [reflexivity|]. rewrite list_insert_id in Ht by exact Ep. auto.
    + destruct (Hout Hd) as [Ep ->]. eexists. split; [reflexivity|]. split; [exact Ht|]. simpl. rewrite insert_length. exact Hls.
  - eauto.
Qed.

(** Only the first [sz] cells matter. *)
Lemma lpProbe_ext keys keys' key : (forall p, p < sz -> keys !! p = keys' !! p) -> forall fuel h, h < sz -> lpProbe fuel keys sz key h = lpProbe fuel keys' sz key h.
Proof.
  intros H. induction fuel as [|fuel IH]; intros h Hh; [reflexivity|]. cbn [lpProbe]. unfold get. rewrite (H h Hh).
  destruct (keys' !! h) as [[k|]|]; [|reflexivity..]. simpl. destruct (k =? key); [reflexivity|]. apply IH. rewrite hnext_mod.
  apply Nat.mod_upper_bound. lia.
Qed.
Lemma keysOf_ok ks : length (first_touch ks) <= sz -> tabOk (keysOf ks) (first_touch ks) /\ insKeys ks (replicate sz None) = Ok (keysOf ks) /\ length (keysOf ks) = sz.
Proof.
  intros H. destruct (insKeys_ok ks (replicate sz None)) as (keys & E & Hk & Hl).
  - apply tabOk_empty; [rewrite replicate_length; lia|]. intros p Hp. apply lookup_replicate_2, Hp.
  - exact H.
  - unfold keysOf. rewrite E, replicate_length in *. auto.
Qed.
Lemma slotOrder_perm ks : length (first_touch ks) <= sz -> slotOrder ks ≡ₚ first_touch ks.
Proof. intros H. apply slotsOf_perm, keysOf_ok, H. Qed.
End Lp.

Lemma first_touch_length l : length (first_touch l) <= length l.
Proof.
  induction l as [|c l IH]; [reflexivity|]. simpl. pose proof (filter_length (fun x => x <> c) (first_touch l)). lia.
Qed.
Lemma first_touch_NoDup l : NoDup l -> first_touch l = l.
Proof.
  induction 1 as [|c l Hc Hl IH]; [reflexivity|]. simpl. rewrite IH. f_equal.
  clear IH Hl. induction l as [|d l IH]; [reflexivity|]. rewrite filter_cons, decide_True.
  - f_equal. apply IH. intros H. apply Hc. right. exact H.
  - intros ->. apply Hc. left.
Qed.

(** The slots up to a bound, and one more. *)
Lemma slots_S (keys : list (option nat)) j x : keys !! j = Some x -> omap id (take (S j) keys) = omap id (take j keys) ++ match x with Some k => [k] | None => [] end.
Proof. intros E. rewrite (take_S_r _ _ _ E), omap_app. destruct x; reflexivity. Qed.

Lemma slotOrder_elem w kk ks : length ks < 2 ^ kk -> forall j, j ∈ slotOrder w kk ks <-> j ∈ ks.
Proof. intros H j. rewrite (slotOrder_perm w kk ks) by (pose proof (first_touch_length ks); lia). apply elem_of_first_touch. Qed.
Lemma slotOrder_NoDup w kk ks : length ks < 2 ^ kk -> NoDup (slotOrder w kk ks).
Proof. intros H. rewrite (slotOrder_perm w kk ks) by (pose proof (first_touch_length ks); lia). apply NoDup_first_touch. Qed.
