(** Proofs about hash_mult_hw.h. *)
From stdpp Require Import numbers.
From Verif Require Import HashHwModel KernelBase BaseProofs ComplProofs ConcProofs ParProofs WorkProofs Assemble IsectProofs TwoPassProofs BinProofs LpProofs SpaProofs MatSpec MaskHashProofs PropBin.
From Verif Require Import Base Spec.

Lemma first_touch_prefix l r : length (first_touch l) <= length (first_touch (l ++ r)).
Proof.
  revert l. induction r as [|x r IH]; intros l; [rewrite app_nil_r; lia|]. replace (l ++ x :: r) with ((l ++ [x]) ++ r) by (rewrite <- app_assoc; reflexivity).
  etransitivity; [|apply IH]. rewrite first_touch_snoc. destruct (decide _); [lia|]. rewrite app_length. lia.
Qed.
Lemma NoDup_range_length (l : list nat) n : NoDup l -> (forall x, x ∈ l -> x < n) -> length l <= n.
Proof.
  intros Hnd H. rewrite <- (seq_length n 0). apply submseteq_length, NoDup_submseteq; [exact Hnd|]. intros x Hx. apply elem_of_seq. specialize (H x Hx). lia.
Qed.

Section Tab.
Context (w : N) (kk : nat).
Notation sz := (2 ^ kk).
Lemma lpProbe_lt keys key p : forall fuel h, h < sz -> lpProbe fuel keys sz key h = Ok p -> p < sz.
Proof.
  induction fuel as [|fuel IH]; intros h Hh E; [discriminate|]. cbn [lpProbe] in E. unfold get in E. destruct (keys !! h) as [[k|]|]; simpl in E; [|injection E as <-; exact Hh|discriminate].
  destruct (k =? key); [injection E as <-; exact Hh|]. eapply IH; [|exact E]. rewrite hnext_mod. apply Nat.mod_upper_bound. pose proof (sz_pos kk). lia.
Qed.
Lemma lpInsert_app keys tl key keys' p b : length keys = sz -> lpInsert w keys sz key = Ok (keys', p, b) -> lpInsert w (keys ++ tl) sz key = Ok (keys' ++ tl, p, b).
Proof.
  intros Hl. unfold lpInsert.
  assert (Es : lpSlot w (keys ++ tl) sz key = lpSlot w keys sz key).
  { unfold lpSlot. apply lpProbe_ext; [intros q Hq; apply lookup_app_l; lia|apply home_lt]. }
  rewrite Es. destruct (lpSlot w keys sz key) as [q|] eqn:E; [|discriminate]. apply lpProbe_lt in E; [|apply home_lt].
  cbn [bind]. unfold get. rewrite lookup_app_l by lia. destruct (keys !! q) as [[k|]|] eqn:Eq; [| |discriminate]; cbn [bind].
  - intros [= <- <- <-]. reflexivity.
  - rewrite !set_Ok by (rewrite ?app_length; lia). cbn [bind]. intros [= <- <- <-]. rewrite insert_app_l by lia. reflexivity.
Qed.
Lemma keysIns_0 : keysIns w kk [] (replicate sz None).
Proof.
  split; [reflexivity|]. split; [|apply replicate_length]. apply tabOk_empty; [rewrite replicate_length; lia|]. intros p Hp. apply lookup_replicate_2, Hp.
Qed.
Lemma keysIns_add done c keys : length (first_touch (done ++ [c])) <= sz -> keysIns w kk done keys ->
  exists p, p < sz /\ keysIns w kk (done ++ [c]) (<[p := Some c]> keys) /\
    (c ∈ done -> keys !! p = Some (Some c) /\ lpInsert w keys sz c = Ok (keys, p, false)) /\
    (c ∉ done -> keys !! p = Some None /\ lpInsert w keys sz c = Ok (<[p := Some c]> keys, p, true)).
Proof.
  intros Hm (E & Ht & Hl). destruct (insert_step w kk keys done c Ht Hm) as (p & Hp & Ht' & Hin & Hout).
  exists p. split; [exact Hp|]. split; [|split; assumption]. split; [|split; [exact Ht'|rewrite insert_length; exact Hl]].
  unfold insKeys in *. rewrite foldM_app, E, bind_Ok. cbn [foldM]. destruct (decide (c ∈ done)) as [Hd|Hd].
  - destruct (Hin Hd) as [Ep ->]. simpl. rewrite list_insert_id by exact Ep. reflexivity.
  - destruct (Hout Hd) as [Ep ->]. reflexivity.
Qed.
Lemma hwClear_ok keys : sz <= length keys -> hwClear sz keys = Ok (replicate sz None ++ drop sz keys).
Proof.
  intros Hl. unfold hwClear.
  match goal with |- for_ 0 _ ?bd keys = _ => destruct (for_inv (fun j k => k = replicate j None ++ drop j keys) bd 0 sz keys) as (k' & -> & ->) end; [lia|reflexivity| |reflexivity].
  intros j k Hj ->. eexists. split; [apply set_Ok; rewrite app_length, replicate_length, drop_length; lia|].
  rewrite insert_app_r_alt by (rewrite replicate_length; lia). rewrite replicate_length, Nat.sub_diag.
  destruct (lookup_lt_is_Some_2 keys j) as [x Ex]; [lia|]. rewrite (drop_S _ _ _ Ex). cbn [insert list_insert].
  rewrite Nat.add_1_r, replicate_S_end, <- app_assoc. reflexivity.
Qed.
End Tab.

Section HashHw.
Context {V : Type} (dflt : V) (mul add : V -> V -> V) (w : N) (W : nat) (stdsort : list (nat * V) -> list (nat * V)).
Notation pcols := (fmap (fun p : nat * V * V => fst (fst p))).
Let addf := fun s x => add x s.

Section Row.
Context (A B : csr V) (i kk : nat) (tl : list (option nat)).
Notation sz := (2 ^ kk).
Hypothesis HA : wf A.
Hypothesis HB : wf B.
Hypothesis Hc : cols A = rows B.
Hypothesis Hi : i < rows A.
Let ps := row_prods A B i.
Hypothesis Hsz : length (first_touch (pcols ps)) <= sz.

Lemma hw_prefix done p rest : ps = done ++ p :: rest -> length (first_touch (pcols done ++ [fst (fst p)])) <= sz.
Proof.
  intros E. etransitivity; [|exact Hsz]. rewrite E, fmap_app, fmap_cons. replace (pcols done ++ fst (fst p) :: pcols rest) with ((pcols done ++ [fst (fst p)]) ++ pcols rest) by (rewrite <- app_assoc; reflexivity).
  apply first_touch_prefix.
Qed.

Lemma hwCount_ok keys : sz <= length keys -> tl = drop sz keys ->
  exists k1, length k1 = sz /\
    prod_loop A B i (fun j k s => c <- get (colids B) k ;; hwCount w sz c s) (replicate sz None ++ tl, 0) = Ok (k1 ++ tl, length (first_touch (pcols ps))).
Proof.
  intros Hl Etl.
  rewrite (prod_loop_foldM A B i _ (fun s p => hwCount w sz (fst (fst p)) s)); [|exact HA|exact HB|exact Hc|exact Hi|].
  2: { intros j k s' c a b _ Hk _ _. rewrite (get_Some _ _ _ Hk). reflexivity. }
  destruct (foldM_inv (fun done s => exists k1, fst s = k1 ++ tl /\ keysIns w kk (pcols done) k1 /\ snd s = length (first_touch (pcols done)))
    (fun s p => hwCount w sz (fst (fst p)) s) ps (replicate sz None ++ tl, 0)) as ([k n] & E & k1 & Ek & (_ & _ & Hl1) & En).
  - exists (replicate sz None). split; [reflexivity|]. split; [apply keysIns_0|reflexivity].
  - intros done p rest [k n] Hps (k1 & Ek & Hk1 & En). cbn [fst snd] in *. subst k n. rewrite fmap_app. cbn [fmap list_fmap].
    destruct (keysIns_add w kk (pcols done) (fst (fst p)) k1 (hw_prefix _ _ _ Hps) Hk1) as (q & Hq & Hk2 & Hin & Hout). pose proof (proj2 (proj2 Hk1)) as Hl1.
    unfold hwCount. rewrite first_touch_snoc. destruct (decide (fst (fst p) ∈ pcols done)) as [Hd|Hd].
    + destruct (Hin Hd) as [Eq Ei]. rewrite (lpInsert_app w kk _ tl _ _ _ _ Hl1 Ei), bind_Ok. eexists. split; [reflexivity|]. exists k1. cbn [fst snd].
      rewrite list_insert_id in Hk2 by exact Eq. auto.
    + destruct (Hout Hd) as [Eq Ei]. rewrite (lpInsert_app w kk _ tl _ _ _ _ Hl1 Ei), bind_Ok. eexists. split; [reflexivity|]. eexists. cbn [fst snd]. split; [reflexivity|]. split; [exact Hk2|]. rewrite app_length. reflexivity.
  - cbn [fst snd] in *. subst. exists k1. split; [exact Hl1|exact E].
Qed.

Definition hwInv (len : nat) (done : list (nat * V * V)) (s : list (option nat) * list V) : Prop :=
  exists k1, fst s = k1 ++ tl /\ keysIns w kk (pcols done) k1 /\ length (snd s) = len /\
    forall p k v, k1 !! p = Some (Some k) -> colval mul addf done k = Some v -> snd s !! p = Some v.

Lemma hwAdd_ok vals : length vals = sz + length tl ->
  exists s, prod_loop A B i (fun j k s => a <- get (values A) j ;; b <- get (values B) k ;; c <- get (colids B) k ;; hwAdd add w sz c (mul a b) s) (replicate sz None ++ tl, vals) = Ok s /\
    hwInv (length vals) ps s.
Proof.
  intros Hlv.
  rewrite (prod_loop_foldM A B i _ (fun s p => hwAdd add w sz (fst (fst p)) (mul (snd (fst p)) (snd p)) s)); [|exact HA|exact HB|exact Hc|exact Hi|].
  2: { intros j k s' c a b Ha Hk Hb _. rewrite (get_Some _ _ _ Ha), bind_Ok, (get_Some _ _ _ Hb), bind_Ok, (get_Some _ _ _ Hk). reflexivity. }
  apply (foldM_inv (hwInv (length vals))).
  - exists (replicate sz None). split; [reflexivity|]. split; [apply keysIns_0|]. split; [reflexivity|]. intros p k v Hp. apply lookup_replicate in Hp as [Hp _]. discriminate.
  - intros done [[c a] b] rest [k vs] Hps (k1 & Ek & Hk1 & Hl & Hv). cbn [fst snd] in *. subst k.
    destruct (keysIns_add w kk (pcols done) c k1 (hw_prefix _ _ _ Hps) Hk1) as (q & Hq & Hk2 & Hin & Hout). pose proof (proj2 (proj2 Hk1)) as Hl1.
    assert (Hinj : forall p k, <[q:=Some c]> k1 !! p = Some (Some k) -> k = c -> p = q).
    { intros p k Hp ->. destruct Hk2 as (_ & Ht2 & Hl2). eapply (tb_inj _ _ _ _ Ht2); [|exact Hq|exact Hp|apply list_lookup_insert; lia].
      rewrite <- Hl2. eapply lookup_lt_Some, Hp. }
    assert (Hstep : forall x, (match colval mul addf done c with None => mul a b | Some v => addf v (mul a b) end) = x ->
      forall p k v, <[q:=Some c]> k1 !! p = Some (Some k) -> colval mul addf (done ++ [(c, a, b)]) k = Some v -> <[q := x]> vs !! p = Some v).
    { intros x Ex p k v Hp. rewrite colval_snoc. destruct (decide (c = k)) as [<-|Hne].
      - rewrite (Hinj p c Hp eq_refl). intros [= <-]. rewrite Ex. apply list_lookup_insert. lia.
      - assert (Hpq : q <> p). { intros ->. rewrite list_lookup_insert in Hp by lia. congruence. }
        rewrite list_lookup_insert_ne in Hp by exact Hpq. intros E. rewrite list_lookup_insert_ne by exact Hpq. eapply Hv; eassumption. }
    unfold hwAdd. destruct (decide (c ∈ pcols done)) as [Hd|Hd].
    + destruct (Hin Hd) as [Eq Ei]. rewrite (lpInsert_app w kk _ tl _ _ _ _ Hl1 Ei), bind_Ok.
      destruct (colval mul addf done c) as [x|] eqn:Ex; [|apply colval_None in Ex; contradiction].
      rewrite (get_Some _ _ _ (Hv q c x Eq Ex)), bind_Ok, set_Ok by lia. rewrite bind_Ok. eexists. split; [reflexivity|]. exists k1. cbn [fst snd].
      rewrite list_insert_id in Hk2, Hstep by exact Eq. rewrite fmap_app. split; [reflexivity|]. split; [exact Hk2|]. split; [rewrite insert_length; exact Hl|]. apply Hstep. reflexivity.
    + destruct (Hout Hd) as [Eq Ei]. rewrite (lpInsert_app w kk _ tl _ _ _ _ Hl1 Ei), bind_Ok.
      assert (Ex : colval mul addf done c = None) by (apply colval_None; exact Hd). rewrite Ex in Hstep.
      rewrite set_Ok by lia. rewrite bind_Ok. eexists. split; [reflexivity|]. eexists. cbn [fst snd]. rewrite fmap_app. split; [reflexivity|]. split; [exact Hk2|]. split; [rewrite insert_length; exact Hl|]. apply Hstep. reflexivity.
Qed.

Lemma hwInv_keys len s : hwInv len ps s -> fst s = keysOf w kk (pcols ps) ++ tl /\ length (keysOf w kk (pcols ps)) = sz /\ length (snd s) = len /\
  forall p k, keysOf w kk (pcols ps) !! p = Some (Some k) -> exists v, snd s !! p = Some v /\ colval mul addf ps k = Some v.
Proof.
  intros (k1 & Ek & (Ei & Ht & Hl1) & Hlen & Hv). assert (E1 : k1 = keysOf w kk (pcols ps)) by (unfold keysOf; rewrite Ei; reflexivity). subst k1.
  split; [exact Ek|]. split; [exact Hl1|]. split; [exact Hlen|]. intros p k Hp.
  assert (Hin : k ∈ pcols ps). { apply elem_of_first_touch. eapply (tb_in _ _ _ _ Ht); [|exact Hp]. rewrite <- Hl1. eapply lookup_lt_Some, Hp. }
  destruct (colval mul addf ps k) as [v|] eqn:E; [|apply colval_None in E; contradiction]. exists v. split; [eapply Hv; eassumption|reflexivity].
Qed.

(** The entries of the first [j] slots. *)
Let L (j : nat) := mrow mul addf ps (omap id (take j (keysOf w kk (pcols ps)))).
Lemma L_S j x : keysOf w kk (pcols ps) !! j = Some x -> L (S j) = L j ++ match x with Some k => mrow mul addf ps [k] | None => [] end.
Proof. intros Ex. unfold L. rewrite (slots_S _ j x Ex), mrow_app. destruct x; reflexivity. Qed.
Lemma mrow_one k v : colval mul addf ps k = Some v -> mrow mul addf ps [k] = [(k, v)].
Proof. intros E. rewrite mrow_cons, E. reflexivity. Qed.

Definition hwRow : list (nat * V) := mrow mul addf ps (slotOrder w kk (pcols ps)).
Lemma L_all : L sz = hwRow.
Proof. reflexivity. Qed.
Lemma hwRow_cols : fst <$> hwRow = slotOrder w kk (pcols ps).
Proof. apply mrow_cols. intros j Hj. rewrite (slotOrder_perm w kk _ Hsz) in Hj. apply elem_of_first_touch, Hj. Qed.
Lemma hwRow_length : length hwRow = length (first_touch (pcols ps)).
Proof. rewrite <- (fmap_length fst hwRow), hwRow_cols. apply Permutation_length, slotOrder_perm, Hsz. Qed.

Lemma hwGather_ok len s : hwInv len ps s -> hwGather sz (fst s) (snd s) = Ok hwRow.
Proof.
  intros H. destruct (hwInv_keys len s H) as (-> & Hlk & Hlen & Hv). unfold hwGather.
  match goal with |- for_ 0 _ ?bd [] = _ => destruct (for_inv (fun j l => l = L j) bd 0 sz []) as (l' & -> & ->) end; [lia|reflexivity| |reflexivity].
  intros j l Hj ->. destruct (lookup_lt_is_Some_2 (keysOf w kk (pcols ps)) j) as [x Ex]; [lia|].
  rewrite (get_Some _ j x) by (rewrite lookup_app_l by lia; exact Ex). rewrite bind_Ok, Nat.add_1_r, (L_S j x Ex). destruct x as [k|].
  - destruct (Hv j k Ex) as (v & Ev & Ec). rewrite (get_Some _ _ _ Ev), bind_Ok, (mrow_one k v Ec). eauto.
  - rewrite app_nil_r. eauto.
Qed.

Lemma foldM_read {X} (l0 : list X) k : k <= length l0 -> foldM (fun l j => x <- get l0 j ;; Ok (l ++ [x])) (seq 0 k) [] = Ok (take k l0).
Proof.
  induction k as [|k IH]; intros Hk; [reflexivity|]. rewrite seq_S, foldM_app, IH, bind_Ok by lia. cbn [foldM].
  destruct (lookup_lt_is_Some_2 l0 k) as [x Ex]; [lia|]. simpl. rewrite (get_Some _ _ _ Ex). simpl. rewrite (take_S_r _ _ _ Ex). reflexivity.
Qed.

Lemma hwGatherSorted_ok len s : (forall l, stdsort l ≡ₚ l) -> hwInv len ps s -> hwGatherSorted dflt stdsort sz (length hwRow) (fst s) (snd s) = Ok (stdsort hwRow).
Proof.
  intros Hsrt H. destruct (hwInv_keys len s H) as (-> & Hlk & Hlen & Hv). unfold hwGatherSorted.
  assert (Hle : forall j, j <= sz -> length (L j) <= length hwRow).
  { intros j Hj. rewrite <- L_all. unfold L. rewrite (take_ge _ sz) by lia. rewrite <- (take_drop j (keysOf w kk (pcols ps))) at 2. rewrite omap_app, mrow_app, app_length. lia. }
  match goal with |- context [for_ 0 _ ?bd ?i0] => destruct (for_inv (fun j st => st = (L j ++ replicate (length hwRow - length (L j)) (0, dflt), length (L j))) bd 0 sz i0) as (l' & -> & ->) end; [lia| | |].
  - simpl. rewrite Nat.sub_0_r. reflexivity.
  - intros j [pv ix] Hj [= -> ->]. destruct (lookup_lt_is_Some_2 (keysOf w kk (pcols ps)) j) as [x Ex]; [lia|].
    rewrite (get_Some _ j x) by (rewrite lookup_app_l by lia; exact Ex). rewrite bind_Ok. replace (j + 1) with (S j) by lia. pose proof (Hle (S j) ltac:(lia)) as HS. rewrite (L_S j x Ex) in *. destruct x as [k|].
    + destruct (Hv j k Ex) as (v & Ev & Ec). rewrite (mrow_one k v Ec) in *. rewrite app_length in HS. simpl in HS.
      rewrite (get_Some _ _ _ Ev), bind_Ok, set_Ok by (rewrite app_length, replicate_length; lia). rewrite bind_Ok. eexists. split; [reflexivity|].
      rewrite app_length. cbn [length]. f_equal. rewrite insert_app_r_alt by lia. rewrite Nat.sub_diag.
      replace (length hwRow - length (L j)) with (S (length hwRow - (length (L j) + 1))) by lia. cbn [replicate insert list_insert]. rewrite <- app_assoc. reflexivity.
    + rewrite app_nil_r. eauto.
  - rewrite bind_Ok, L_all, Nat.sub_diag. cbn [replicate]. rewrite app_nil_r.
    rewrite foldM_read by (rewrite (Permutation_length (Hsrt hwRow)); lia). rewrite take_ge by (rewrite (Permutation_length (Hsrt hwRow)); lia). reflexivity.
Qed.
End Row.

(** ** The tables *)
Section Bin.
Context (A B : csr V) (nt : nat).
Hypothesis HA : wf A.
Hypothesis HB : wf B.
Hypothesis Hc : cols A = rows B.
Hypothesis H0 : rows A <> 0.
Hypothesis Hnt : 1 <= nt.
Hypothesis HN : (N.of_nat (rows A + 1) < 2 ^ 17)%N.
Hypothesis HW : sum_list (nprods A B <$> seq 0 (rows A)) + nt <= W.
Hypothesis H8 : 8 < W.
Hypothesis Hf : forall i, i < rows A -> 2 * Nat.min (nprods A B i) (cols B) <= W.
Let cut := cutOf W (nprods A B) (rows A) nt.
Let bid := idOf W (nprods A B) (rows A) (cols B) 8.
Let b := binFor W A B nt 8.

Lemma hw_bid i : i < rows A -> get (b_id b) i = Ok (bid i).
Proof. intros Hi. apply get_Some. simpl. rewrite seq_at, decide_True by lia. reflexivity. Qed.
Lemma hw_bid_ok i : i < rows A -> binOf 8 (Nat.min (nprods A B i) (cols B)) (bid i).
Proof. intros Hi. apply (idOf_ok W (nprods A B) (rows A) (cols B) 8 ltac:(lia) H8 Hf i Hi). Qed.
Definition hwKk (i : nat) : nat := 3 + (bid i - 1).
Lemma hw_ft_le i : i < rows A -> length (first_touch (touched_cols A B i)) <= Nat.min (nprods A B i) (cols B).
Proof.
  intros Hi. pose proof (first_touch_length (touched_cols A B i)) as H1. rewrite <- nprods_touched in H1.
  assert (length (first_touch (touched_cols A B i)) <= cols B); [|lia].
  apply NoDup_range_length; [apply NoDup_first_touch|]. intros x Hx. rewrite elem_of_first_touch in Hx. rewrite <- row_prods_cols in Hx. apply elem_of_list_fmap in Hx as ([[c a] b0] & -> & Hp). eapply row_prods_range; eassumption.
Qed.
Lemma hw_empty i : i < rows A -> bid i = 0 -> touched_cols A B i = [].
Proof.
  intros Hi Hb. pose proof (hw_bid_ok i Hi) as H. unfold binOf in H. rewrite Hb in H. destruct (Nat.eqb_spec (Nat.min (nprods A B i) (cols B)) 0) as [E|E]; [|destruct H as (j & E' & _); lia].
  assert (Hz : nprods A B i = 0). { destruct (decide (cols B = 0)) as [Ec|Ec]; [apply touched_no_cols; assumption|lia]. }
  rewrite nprods_touched in Hz. apply length_zero_iff_nil, Hz.
Qed.
Lemma hw_size i : i < rows A -> 0 < bid i -> shRow W (bid i) = 2 ^ hwKk i /\ length (first_touch (touched_cols A B i)) <= 2 ^ hwKk i.
Proof.
  intros Hi Hb. pose proof (hw_bid_ok i Hi) as H. unfold binOf in H. destruct (Nat.eqb_spec (Nat.min (nprods A B i) (cols B)) 0) as [E|E]; [lia|].
  destruct H as (j & Ej & Hle & Hlt). unfold shRow, hwKk. rewrite Ej, Nat.add_sub, Nat.pow_add_r. change (2 ^ 3) with 8. split.
  - apply (exp_small W 8 (Nat.min (nprods A B i) (cols B))); [exact Hlt|apply Hf, Hi|exact H8].
  - pose proof (hw_ft_le i Hi). lia.
Qed.
Lemma hw_table t : t < nt -> exists sz, localSize W (b_nz b) (b_off b) 8 (cols B) t = Ok sz /\
  hwTable W b (cols B) t = Ok (replicate sz (Some 0)) /\
  forall i, cut t <= i < cut (t + 1) -> 0 < bid i -> 2 ^ hwKk i <= sz.
Proof.
  intros Ht. destruct (cutOf_props W (nprods A B) (rows A) nt Hnt HN HW) as (C0 & Cn & Cr & Cm). fold cut in C0, Cn, Cr, Cm.
  destruct (localSize_ok W (nprods A B) (rows A) 8 (cols B) (cut <$> seq 0 (nt + 1)) t (cut t) (cut (t + 1))) as (sz & E & Hsz & _);
    [lia|lia|rewrite seq_at, decide_True by lia; reflexivity|rewrite seq_at, decide_True by lia; reflexivity|split; [apply Cm, Ht|apply Cr; lia]|exact Hf|intros Hz i _; apply touched_no_cols; assumption|].
  exists sz. split; [exact E|]. split; [unfold hwTable; cbn [b_nz b_off b binFor]; unfold cut in E; rewrite E; reflexivity|].
  intros i Hi Hb. pose proof (Cr (t + 1) ltac:(lia)). unfold hwKk. rewrite Nat.pow_add_r. change (2 ^ 3) with 8. apply (Hsz i Hi); [apply hw_bid_ok; lia|lia].
Qed.

(** Row [i] as it comes out of the table, and as it is stored. *)
Definition hwOut (sorted : bool) (i : nat) : list (nat * V) :=
  if 0 <? bid i then (if sorted then stdsort (hwRow A B i (hwKk i)) else hwRow A B i (hwKk i)) else [].

Hypothesis Hsrt : forall l, stdsort l ≡ₚ l.
Lemma hwOut_length sorted i : i < rows A -> length (hwOut sorted i) = length (first_touch (touched_cols A B i)).
Proof.
  intros Hi. unfold hwOut. destruct (Nat.ltb_spec 0 (bid i)) as [Hb|Hb].
  - destruct (hw_size i Hi Hb) as [_ Hk]. assert (E : length (hwRow A B i (hwKk i)) = length (first_touch (touched_cols A B i))) by (rewrite <- row_prods_cols in *; apply hwRow_length, Hk).
    destruct sorted; [rewrite (Permutation_length (Hsrt _))|]; exact E.
  - rewrite hw_empty by lia. reflexivity.
Qed.

Lemma hwSym_ok t i keys sz : t < nt -> cut t <= i < cut (t + 1) -> i < rows A -> localSize W (b_nz b) (b_off b) 8 (cols B) t = Ok sz -> length keys = sz ->
  exists keys', hwSym w W A B (b_id b) i keys = Ok (keys', length (first_touch (touched_cols A B i))) /\ length keys' = sz.
Proof.
  intros Ht Hi Hir Esz Hl. unfold hwSym. rewrite hw_bid, bind_Ok by exact Hir. destruct (Nat.ltb_spec 0 (bid i)) as [Hb|Hb].
  - destruct (hw_table t Ht) as (sz' & E' & _ & Hsz). rewrite Esz in E'. injection E' as <-. specialize (Hsz i Hi Hb). destruct (hw_size i Hir Hb) as [-> Hk]. cbv zeta.
    rewrite hwClear_ok, bind_Ok by lia. rewrite <- row_prods_cols in *.
    destruct (hwCount_ok A B i (hwKk i) (drop (2 ^ hwKk i) keys) HA HB Hc Hir Hk keys ltac:(lia) eq_refl) as (k1 & Hl1 & ->). eexists. split; [reflexivity|].
    rewrite app_length, drop_length. lia.
  - exists keys. rewrite hw_empty by lia. split; [reflexivity|exact Hl].
Qed.
Lemma hwNum_ok sorted t i s sz rp : t < nt -> cut t <= i < cut (t + 1) -> i < rows A -> localSize W (b_nz b) (b_off b) 8 (cols B) t = Ok sz ->
  length (fst s) = sz -> length (snd s) = sz -> (exists o, rp !! i = Some o /\ rp !! (i + 1) = Some (o + length (hwOut sorted i))) ->
  exists s', hwNum dflt mul add w W stdsort sorted A B (b_id b) rp i s = Ok (s', hwOut sorted i) /\ length (fst s') = sz /\ length (snd s') = sz.
Proof.
  intros Ht Hi Hir Esz Hl1 Hl2 (o & Ho & Ho1). pose proof (hwOut_length sorted i Hir) as Hlo. unfold hwNum. rewrite hw_bid, bind_Ok by exact Hir. unfold hwOut in *. destruct (Nat.ltb_spec 0 (bid i)) as [Hb|Hb].
  - destruct (hw_table t Ht) as (sz' & E' & _ & Hsz). rewrite Esz in E'. injection E' as <-. specialize (Hsz i Hi Hb). destruct (hw_size i Hir Hb) as [-> Hk]. cbv zeta.
    rewrite (get_Some _ _ _ Ho), bind_Ok. rewrite hwClear_ok, bind_Ok by lia. rewrite <- row_prods_cols in Hk.
    destruct (hwAdd_ok A B i (hwKk i) (drop (2 ^ hwKk i) (fst s)) HA HB Hc Hir Hk (snd s)) as ([keys vals] & E & Hinv); [rewrite drop_length; lia|].
    rewrite E, bind_Ok.
    assert (El : (if sorted then e <- get rp (i + 1) ;; hwGatherSorted dflt stdsort (2 ^ hwKk i) (e - o) keys vals else hwGather (2 ^ hwKk i) keys vals)
      = Ok (if sorted then stdsort (hwRow A B i (hwKk i)) else hwRow A B i (hwKk i))).
    { destruct sorted.
      - rewrite (get_Some _ _ _ Ho1), bind_Ok. replace (o + _ - o) with (length (hwRow A B i (hwKk i))) by (rewrite (Permutation_length (Hsrt _)); lia).
        exact (hwGatherSorted_ok A B i (hwKk i) _ Hc Hir Hk _ (keys, vals) Hsrt Hinv).
      - exact (hwGather_ok A B i (hwKk i) _ Hc Hir Hk _ (keys, vals) Hinv). }
    rewrite El, bind_Ok. eexists. split; [reflexivity|]. destruct Hinv as (k1 & Ek & (_ & _ & Hlk) & Hlv & _). cbn [fst snd] in *. rewrite Ek, app_length, drop_length. split; lia.
  - eexists. split; [reflexivity|]. auto.
Qed.

Theorem hashSpGEMM_ok sorted top nts :
  hashSpGEMM_ends dflt mul add w W stdsort sorted top nts nt A B (assemble (hwOut sorted) (rows A) (cols B)) /\
  (forall C, hashSpGEMM_ends dflt mul add w W stdsort sorted top nts nt A B C -> C = assemble (hwOut sorted) (rows A) (cols B)) /\
  (forall b asg left, set_max_bin_ends W top nts nt 8 (rowptr A) (colids A) (rowptr B) (rows A) (cols B) b -> chunks (b_off b) nt = Ok asg ->
    (forall t tab, t < nt -> hwTable W b (cols B) t = Ok tab -> length (left t) = length tab) ->
    race_free (symMem (V := V) (b_nz b), symThreads (hwTable W b (cols B)) (hwSym w W A B (b_id b)) asg) /\
    let C := assemble (hwOut sorted) (rows A) (cols B) in
    race_free (numMem (replicate (nnz C) 0) (replicate (nnz C) dflt),
      numThreads (fun t => tab <- hwTable W b (cols B) t ;; Ok (left t, replicate (length tab) dflt)) (hwNum dflt mul add w W stdsort sorted A B (b_id b) (rowptr C)) (rowptr C) asg)).
Proof.
  destruct (set_max_bin_ok W top A B nts nt 8 HA HB Hc H0 Hnt HN HW ltac:(lia) ltac:(lia) Hf) as [Pb Ub].
  destruct (binFor_chunks W A B nt 8 Hnt HN HW) as (asg & Ec & Hs & Hlen & Hits).
  set (R := hwOut sorted).
  assert (Hin' : forall t its i, asg !! t = Some its -> i ∈ its -> t < nt /\ cut t <= i < cut (t + 1) /\ i < rows A).
  { intros t its i Ht Hi. pose proof (asg_lt _ _ _ _ _ Hs Ht Hi). destruct (Hits t its Ht) as [Htn ->]. split; [exact Htn|]. split; [|assumption].
    fold cut in Hi. apply elem_of_seq in Hi. lia. }
  assert (Htp : forall left : nat -> list (option nat), (forall t tab, t < nt -> hwTable W b (cols B) t = Ok tab -> length (left t) = length tab) ->
    twoPass_ends dflt top nts (rows A) (cols B) (b_nz b) (hwTable W b (cols B)) (hwSym w W A B (b_id b)) asg
      (fun t => tab <- hwTable W b (cols B) t ;; Ok (left t, replicate (length tab) dflt)) (fun rp => hwNum dflt mul add w W stdsort sorted A B (b_id b) rp) asg (assemble R (rows A) (cols B)) /\
    (forall C, twoPass_ends dflt top nts (rows A) (cols B) (b_nz b) (hwTable W b (cols B)) (hwSym w W A B (b_id b)) asg
      (fun t => tab <- hwTable W b (cols B) t ;; Ok (left t, replicate (length tab) dflt)) (fun rp => hwNum dflt mul add w W stdsort sorted A B (b_id b) rp) asg C -> C = assemble R (rows A) (cols B)) /\
    race_free (symMem (V := V) (b_nz b), symThreads (hwTable W b (cols B)) (hwSym w W A B (b_id b)) asg) /\
    race_free (numMem (replicate (pre R (rows A)) 0) (replicate (pre R (rows A)) dflt),
      numThreads (fun t => tab <- hwTable W b (cols B) t ;; Ok (left t, replicate (length tab) dflt)) (hwNum dflt mul add w W stdsort sorted A B (b_id b) (pre R <$> seq 0 (rows A + 1))) (pre R <$> seq 0 (rows A + 1)) asg)).
  { intros left Hleft.
    set (I1 := fun t (k : list (option nat)) => exists sz, localSize W (b_nz b) (b_off b) 8 (cols B) t = Ok sz /\ length k = sz).
    set (I2 := fun t (s : list (option nat) * list V) => exists sz, localSize W (b_nz b) (b_off b) 8 (cols B) t = Ok sz /\ length (fst s) = sz /\ length (snd s) = sz).
    destruct (two_pass dflt top (rows A) (cols B) nts R (hwTable W b (cols B)) (hwSym w W A B (b_id b)) asg I1
      (fun t => tab <- hwTable W b (cols B) t ;; Ok (left t, replicate (length tab) dflt)) (fun rp => hwNum dflt mul add w W stdsort sorted A B (b_id b) rp) asg I2 Hs Hs) with (nz0 := b_nz b) as (P & U & F1 & F2).
    - intros t its Ht. destruct (Hits t its Ht) as [Htn _]. destruct (hw_table t Htn) as (sz & E & -> & _). eexists. split; [reflexivity|]. exists sz. split; [exact E|apply replicate_length].
    - intros t its i s Ht Hi (sz & E & Hl). destruct (Hin' t its i Ht Hi) as (Htn & Hcut & Hir). destruct (hwSym_ok t i s sz Htn Hcut Hir E Hl) as (s' & -> & Hl'). exists s'.
      split; [unfold R; rewrite hwOut_length by exact Hir; reflexivity|]. exists sz. auto.
    - intros t its Ht. destruct (Hits t its Ht) as [Htn _]. destruct (hw_table t Htn) as (sz & E & Et & _). rewrite Et, bind_Ok. eexists. split; [reflexivity|]. exists sz. cbn [fst snd].
      split; [exact E|]. rewrite (Hleft t _ Htn Et), !replicate_length. auto.
    - intros t its i s Ht Hi (sz & E & Hl1 & Hl2). destruct (Hin' t its i Ht Hi) as (Htn & Hcut & Hir).
      destruct (hwNum_ok sorted t i s sz (pre R <$> seq 0 (rows A + 1)) Htn Hcut Hir E Hl1 Hl2) as (s' & -> & Hl').
      { exists (pre R i). rewrite !seq_at, !decide_True by lia. split; [reflexivity|]. rewrite Nat.add_1_r, pre_S. reflexivity. }
      exists s'. split; [reflexivity|]. exists sz. auto.
    - simpl. rewrite fmap_length, seq_length. reflexivity.
    - exact HN.
    - auto. }
  split; [|split].
  - exists b, asg. split; [exact Pb|]. split; [exact Ec|]. intros left Hleft. apply Htp, Hleft.
  - intros C (b' & asg' & Qb & Qc & Q). apply Ub in Qb as ->. rewrite Ec in Qc. injection Qc as <-.
    set (left := fun t => match hwTable W b (cols B) t with Ok tab => tab | Err _ => [] end).
    assert (Hleft : forall t tab, t < nt -> hwTable W b (cols B) t = Ok tab -> length (left t) = length tab) by (intros t tab _ E; unfold left; rewrite E; reflexivity).
    apply (Htp left Hleft), Q, Hleft.
  - intros b' asg' left Qb Qc Hleft. apply Ub in Qb as ->. rewrite Ec in Qc. injection Qc as <-. apply (Htp left Hleft).
Qed.
End Bin.

Theorem hashSpGEMM_large sorted top nts nt (A B C : csr V) : wf A -> wf B -> cols A = rows B -> (2 ^ 17 <= N.of_nat (rows A + 1))%N -> 1 <= nts <= rows A + 1 ->
  ~ hashSpGEMM_ends dflt mul add w W stdsort sorted top nts nt A B C.
Proof.
  intros HA HB Hin HN Hnt (b & asg & Qb & _). revert Qb. apply set_max_bin_large; assumption.
Qed.
End HashHw.
