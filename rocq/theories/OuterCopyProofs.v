(** The copy loop of OuterSpGEMM: iterations that read, modify and write cells of their own. *)
From Verif Require Export OuterModel.
From Verif Require Import BaseProofs ConcProofs DriverBase ParProofs ScanProofs SortProofs RadixProofs.
From Verif Require Import Base Spec.

(** Distributions of iterations. *)
Lemma sch_lt n asg t its i : schedule n asg -> asg !! t = Some its -> i ∈ its -> i < n.
Proof.
  intros Hs Ht Hi. assert (i ∈ seq 0 n) as Hin.
  { rewrite <- Hs. apply elem_of_list_join. exists its. split; [exact Hi|]. eapply elem_of_list_lookup_2, Ht. }
  apply elem_of_seq in Hin. lia.
Qed.
Lemma sch_nodup n asg t its : schedule n asg -> asg !! t = Some its -> NoDup its.
Proof.
  intros Hs Ht. assert (Hnd : NoDup (mjoin asg)) by (rewrite Hs; apply NoDup_seq).
  rewrite <- (take_drop_middle asg t its Ht), mjoin_app, mjoin_cons in Hnd.
  apply NoDup_app in Hnd as (_ & _ & Hnd). apply NoDup_app in Hnd as [Hnd _]. exact Hnd.
Qed.
Lemma sch_uniq n asg t u its itu i : schedule n asg -> asg !! t = Some its -> asg !! u = Some itu -> i ∈ its -> i ∈ itu -> t = u.
Proof.
  intros Hs. assert (Hnd : NoDup (mjoin asg)) by (rewrite Hs; apply NoDup_seq). clear Hs.
  revert t u. induction asg as [|a asg IH]; intros t u Ht Hu Hi Hj; [destruct t; discriminate|].
  rewrite mjoin_cons in Hnd. apply NoDup_app in Hnd as (_ & Hd & Hnd).
  assert (Hj' : forall u itu, asg !! u = Some itu -> i ∈ itu -> i ∈ mjoin asg)
    by (intros u' itu' Hu' Hi'; apply elem_of_list_join; exists itu'; split; [exact Hi'|eapply elem_of_list_lookup_2, Hu']).
  destruct t as [|t], u as [|u]; simpl in Ht, Hu; [reflexivity| | |].
  - injection Ht as ->. exfalso. apply (Hd i Hi), (Hj' u itu Hu Hj).
  - injection Hu as ->. exfalso. apply (Hd i Hj), (Hj' t its Ht Hi).
  - f_equal. apply IH; auto.
Qed.

Section Rmw.
Context {L Val : Type} `{Countable L}.
Notation mem := (gmap L Val).
Notation event := (@event L Val).
Context (body : nat -> prog L Val unit) (n : nat) (m0 : mem) (evs : nat -> list event) (own : nat -> L -> Prop).
Hypothesis Hsolo : forall i m, i < n -> (forall l, is_Some (m !! l) <-> is_Some (m0 !! l)) ->
  (forall l, own i l -> m !! l = m0 !! l) -> exists mf, solo m (body i) (evs i) tt mf.
Hypothesis Hown : forall i l, i < n -> (ERd l ∈ evs i \/ EAny l ∈ evs i \/ exists v, EWr l v ∈ evs i) -> own i l.
Hypothesis Hx : forall i j l, i < n -> j < n -> own i l -> own j l -> i = j.

Lemma rmw_its its m : NoDup its -> (forall i, i ∈ its -> i < n) ->
  (forall l, is_Some (m !! l) <-> is_Some (m0 !! l)) -> (forall i l, i ∈ its -> own i l -> m !! l = m0 !! l) ->
  exists mf, solo m (runIts body its) (itEvs evs its) tt mf.
Proof.
  revert m. induction its as [|i its IH]; intros m Hnd Hlt Hd Ho.
  - exists m. constructor.
  - apply NoDup_cons in Hnd as [Hni Hnd].
    destruct (Hsolo i m) as [m1 H1]; [apply Hlt; left|exact Hd|intros l; apply Ho; left|].
    destruct (IH m1) as [m2 H2].
    + exact Hnd.
    + intros j Hj. apply Hlt. right. exact Hj.
    + intros l. rewrite <- Hd. symmetry. apply (solo_dom _ _ _ _ _ l H1).
    + intros j l Hj Hl. rewrite (solo_keep _ _ _ _ _ l H1); [apply (Ho j); [right; exact Hj|exact Hl]|].
      intros v Hv. assert (i = j) as ->; [|contradiction]. apply (Hx i j l); [apply Hlt; left|apply Hlt; right; exact Hj| |exact Hl].
      apply Hown; [apply Hlt; left|]. right. right. eauto.
    + exists m2. unfold itEvs. rewrite fmap_cons, mjoin_cons. simpl. eapply solo_bind; [exact H1|exact H2].
Qed.

Section Asg.
Context (asg : list (list nat)).
Hypothesis Hs : schedule n asg.

Lemma rmw_strict : ConcProofs.strict (itEvs evs <$> asg).
Proof.
  intros t u et eu l v Hne Ht Hu Hw. rewrite list_lookup_fmap in Ht, Hu. destruct (asg !! t) as [it|] eqn:Et; [|discriminate]. destruct (asg !! u) as [iu|] eqn:Eu; [|discriminate].
  cbn in Ht, Hu. injection Ht as <-. injection Hu as <-. apply itEvs_elem in Hw as (i & Hi & Hw).
  assert (Hin : i < n) by (eapply sch_lt; [exact Hs|exact Et|exact Hi]).
  assert (Ho : own i l) by (apply Hown; [exact Hin|right; right; eauto]).
  assert (Hno : forall e j, j ∈ iu -> own j l -> e ∈ evs j -> False).
  { intros e j Hj Hoj _. assert (Hjn : j < n) by (eapply sch_lt; [exact Hs|exact Eu|exact Hj]).
    assert (i = j) as -> by (apply (Hx i j l); assumption). apply Hne. eapply (sch_uniq n asg t u); eassumption. }
  split; [|split; [|intros v']]; intros He; apply itEvs_elem in He as (j & Hj & He);
    (assert (Hjn : j < n) by (eapply sch_lt; [exact Hs|exact Eu|exact Hj])); eapply (Hno _ j Hj); try exact He; apply Hown; eauto.
Qed.

Lemma rmw_solo t p es r : (runIts body <$> asg) !! t = Some p -> (itEvs evs <$> asg) !! t = Some es -> replicate (length asg) tt !! t = Some r ->
  exists mf, solo m0 p es r mf.
Proof.
  intros Hp He _. apply list_lookup_fmap_inv in Hp as (its & -> & Et). apply list_lookup_fmap_inv in He as (its' & -> & Et').
  rewrite Et in Et'. injection Et' as <-. destruct r.
  apply rmw_its; [eapply sch_nodup; eassumption| |reflexivity|reflexivity]. intros i Hi. eapply sch_lt; eassumption.
Qed.

Lemma rmw_asg : exists m', always (m0, runIts body <$> asg) m' (replicate (length asg) tt) /\
  (forall i l v, i < n -> EWr l v ∈ evs i -> m' !! l = apply_evs (evs i) m0 !! l) /\
  (forall l, (forall i v, i < n -> EWr l v ∉ evs i) -> m' !! l = m0 !! l).
Proof.
  exists (final_mem (itEvs evs <$> asg) m0). split; [|split].
  - apply phase_always; [rewrite !fmap_length; reflexivity|rewrite replicate_length, fmap_length; reflexivity|exact rmw_solo|apply strict_compat, rmw_strict].
  - intros i l v Hi Hv. assert (Hin : i ∈ mjoin asg) by (rewrite Hs; apply elem_of_seq; lia).
    apply elem_of_list_join in Hin as (its & Hit & Hasg). apply elem_of_list_lookup in Hasg as [t Ht].
    rewrite (final_mem_in _ m0 l t (itEvs evs its) v).
    2: apply strict_compat, rmw_strict. 2: rewrite list_lookup_fmap, Ht; reflexivity. 2: apply itEvs_elem; eauto.
    apply elem_of_list_split in Hit as (i1 & i2 & ->). unfold itEvs. rewrite fmap_app, fmap_cons, mjoin_app, mjoin_cons, !apply_evs_app.
    rewrite apply_evs_notin; [apply apply_evs_indep; eauto|].
    intros w Hw. apply (itEvs_elem evs) in Hw as (j & Hj & Hw). pose proof (sch_nodup n asg t _ Hs Ht) as Hnd. apply NoDup_app in Hnd as (_ & _ & Hnd). apply NoDup_cons in Hnd as [Hni _].
    assert (Hjn : j < n) by (eapply sch_lt; [exact Hs|exact Ht|]; apply elem_of_app; right; right; exact Hj).
    assert (i = j) as ->; [|contradiction]. apply (Hx i j l); [exact Hi|exact Hjn| |]; apply Hown; eauto.
  - intros l Hl. apply final_mem_notin. intros t et v Ht Hv. rewrite list_lookup_fmap in Ht. destruct (asg !! t) as [its|] eqn:Et; [|discriminate]. cbn in Ht. injection Ht as <-.
    apply itEvs_elem in Hv as (i & Hi & Hv). apply (Hl i v); [eapply sch_lt; eassumption|exact Hv].
Qed.

Lemma rmw_race : race_free (m0, runIts body <$> asg).
Proof. eapply phase_race_free; [| |exact rmw_solo|exact rmw_strict]; rewrite ?replicate_length, !fmap_length; reflexivity. Qed.
End Asg.

Theorem rmw_parfor : exists m', parfor_ends body n m0 m' /\ parfor_race_free body n m0 /\
  (forall i l v, i < n -> EWr l v ∈ evs i -> m' !! l = apply_evs (evs i) m0 !! l) /\
  (forall l, (forall i v, i < n -> EWr l v ∉ evs i) -> m' !! l = m0 !! l).
Proof.
  destruct (rmw_asg _ (sched_one n)) as (m' & Hal & Hwr & Hkp). exists m'. split; [|split; [intros asg Hs; apply rmw_race, Hs|auto]].
  intros asg Hs. destruct (rmw_asg asg Hs) as (m2 & Hal2 & Hwr2 & Hkp2).
  assert (m2 = m') as <-; [|exact Hal2]. apply map_eq. intros l.
  destruct (writes_dec l (itEvs evs (seq 0 n))) as [[v Hv]|Hno].
  - apply itEvs_elem in Hv as (i & Hi & Hv). apply elem_of_seq in Hi. rewrite (Hwr i l v), (Hwr2 i l v); auto; lia.
  - assert (Hno' : forall i v, i < n -> EWr l v ∉ evs i).
    { intros i v Hi Hv. apply (Hno v). apply itEvs_elem. exists i. split; [apply elem_of_seq; lia|exact Hv]. }
    rewrite Hkp, Hkp2 by exact Hno'. reflexivity.
Qed.
End Rmw.

Section Copy.
Context {V : Type}.
Notation triple := (nat * nat * V)%type.
Notation cell := (cellv V).
Definition cntR (r : nat) (l : list triple) : nat := length (filter (fun x => x.1.1 = r) l).

Lemma copyMem_lookup nbr ids (vals : list V) a p : copyMem nbr ids vals !! (a, p) =
  if decide (a = aNbr) then CN <$> nbr !! p else if decide (a = aIds) then CN <$> ids !! p else if decide (a = aVals) then CV <$> vals !! p else None.
Proof.
  unfold copyMem. rewrite lookup_union, cells_lookup, arrays_lookup, list_lookup_fmap.
  destruct (decide (a = aNbr)) as [->|].
  - cbn. destruct (nbr !! p); reflexivity.
  - destruct (decide (a = aIds)); [destruct (CN <$> ids !! p); reflexivity|]. destruct (decide (a = aVals)); [destruct (CV <$> vals !! p); reflexivity|reflexivity].
Qed.

Lemma copyMem_inj nbr ids (vals : list V) nbr' ids' vals' : copyMem nbr ids vals = copyMem nbr' ids' vals' -> nbr = nbr' /\ ids = ids' /\ vals = vals'.
Proof.
  intros E. split; [|split]; apply list_eq; intros p.
  - apply (f_equal (fun m => m !! (aNbr, p))) in E. rewrite !copyMem_lookup in E. simpl in E. destruct (nbr !! p), (nbr' !! p); simpl in E; congruence.
  - apply (f_equal (fun m => m !! (aIds, p))) in E. rewrite !copyMem_lookup in E. simpl in E. destruct (ids !! p), (ids' !! p); simpl in E; congruence.
  - apply (f_equal (fun m => m !! (aVals, p))) in E. rewrite !copyMem_lookup in E. simpl in E. destruct (vals !! p), (vals' !! p); simpl in E; congruence.
Qed.

(** The blocks as they are after merging. *)
Context (blk : nat -> nat) (nb nr : nat) (Ms : list (list triple)) (cum ns : list nat) (blks : list (list (option triple))) (ids0 : list nat) (vals0 : list V).
Hypothesis HMs : length Ms = nb.
Hypothesis Hns : ns = length <$> Ms.
Definition base (b : nat) : nat := sum_list (length <$> take b Ms).
Hypothesis Hcum : forall b, b < nb -> cum !! b = Some (base b).
Hypothesis Hblks : Forall2 holdsL blks Ms.
Hypothesis Hrows : forall b M x, Ms !! b = Some M -> x ∈ M -> blk x.1.1 = b /\ x.1.1 < nr.
Hypothesis Hids : length ids0 = length (mjoin Ms).
Hypothesis Hvals : length vals0 = length (mjoin Ms).
Notation m0 := (copyMem (replicate nr 0) ids0 vals0).

Lemma base_S b M : Ms !! b = Some M -> base (S b) = base b + length M.
Proof. intros HM. unfold base. rewrite (take_S_r _ _ _ HM), fmap_app, sum_list_with_app. cbn. lia. Qed.
Lemma base_mono b c : b <= c -> base b <= base c.
Proof.
  intros Hbc. induction Hbc as [|c Hbc IH]; [reflexivity|]. destruct (Ms !! c) as [M|] eqn:E; [rewrite (base_S c M E); lia|].
  unfold base in *. apply lookup_ge_None in E. rewrite (take_ge Ms (S c)), (take_ge Ms c) in * by lia. exact IH.
Qed.
Lemma base_range b M q : Ms !! b = Some M -> q < length M -> base b + q < length (mjoin Ms).
Proof.
  intros HM Hq. assert (E : length (mjoin Ms) = base (length Ms)).
  { unfold base. rewrite take_ge by lia. clear. induction Ms as [|M l IH]; [reflexivity|]. rewrite mjoin_cons, app_length, fmap_cons. cbn. rewrite IH. reflexivity. }
  rewrite E. pose proof (base_S b M HM). pose proof (lookup_lt_Some _ _ _ HM). pose proof (base_mono (S b) (length Ms) ltac:(lia)). lia.
Qed.
Lemma base_uniq b c M N q r : Ms !! b = Some M -> Ms !! c = Some N -> q < length M -> r < length N -> base b + q = base c + r -> b = c.
Proof.
  intros HM HN Hq Hr E. pose proof (base_S b M HM). pose proof (base_S c N HN).
  destruct (lt_eq_lt_dec b c) as [[Hlt|He]|Hlt]; [|exact He|].
  - pose proof (base_mono (S b) c ltac:(lia)). lia.
  - pose proof (base_mono (S c) b ltac:(lia)). lia.
Qed.

Definition blockOf (b : nat) : list triple := default [] (Ms !! b).
Definition evE (b q : nat) : list (@event loc cell) :=
  match blockOf b !! q with
  | Some x => [ERd (aNbr, x.1.1); EWr (aNbr, x.1.1) (CN (cntR x.1.1 (take q (blockOf b)) + 1));
               EWr (aIds, base b + q) (CN x.1.2); EWr (aVals, base b + q) (CV x.2)]
  | None => []
  end.
Definition evC (b : nat) : list (@event loc cell) := mjoin (evE b <$> seq 0 (length (blockOf b))).
Definition ownC (b : nat) (l : loc) : Prop :=
  (l.1 = aNbr /\ blk l.2 = b /\ l.2 < nr) \/ ((l.1 = aIds \/ l.1 = aVals) /\ exists q, q < length (blockOf b) /\ l.2 = base b + q).

Lemma blockOf_Some b : b < nb -> Ms !! b = Some (blockOf b).
Proof. intros Hb. unfold blockOf. destruct (lookup_lt_is_Some_2 Ms b) as [M ->]; [lia|]. reflexivity. Qed.

Lemma m0_nbr r : r < nr -> m0 !! (aNbr, r) = Some (CN 0).
Proof. intros Hr. rewrite copyMem_lookup. cbn. rewrite lookup_replicate_2 by exact Hr. reflexivity. Qed.
Lemma m0_ids b q : b < nb -> q < length (blockOf b) -> is_Some (m0 !! (aIds, base b + q)).
Proof.
  intros Hb Hq. rewrite copyMem_lookup. cbn. destruct (lookup_lt_is_Some_2 ids0 (base b + q)) as [x ->]; [|eauto]. rewrite Hids. apply (base_range b (blockOf b)); [apply blockOf_Some, Hb|exact Hq].
Qed.
Lemma m0_vals b q : b < nb -> q < length (blockOf b) -> is_Some (m0 !! (aVals, base b + q)).
Proof.
  intros Hb Hq. rewrite copyMem_lookup. cbn. destruct (lookup_lt_is_Some_2 vals0 (base b + q)) as [x ->]; [|eauto]. rewrite Hvals. apply (base_range b (blockOf b)); [apply blockOf_Some, Hb|exact Hq].
Qed.

Lemma cntR_snoc r l x : cntR r (l ++ [x]) = cntR r l + (if decide (x.1.1 = r) then 1 else 0).
Proof. unfold cntR. rewrite filter_app, app_length. destruct (decide (x.1.1 = r)); [rewrite filter_cons_True by assumption|rewrite filter_cons_False by assumption]; cbn; lia. Qed.

Lemma copyBlock_solo b m : b < nb -> (forall l, is_Some (m !! l) <-> is_Some (m0 !! l)) -> (forall l, ownC b l -> m !! l = m0 !! l) ->
  exists mf, solo m (copyBlock cum ns blks b) (evC b) tt mf /\
    (forall r, r < nr -> blk r = b -> mf !! (aNbr, r) = Some (CN (cntR r (blockOf b)))) /\
    (forall q x, blockOf b !! q = Some x -> mf !! (aIds, base b + q) = Some (CN x.1.2) /\ mf !! (aVals, base b + q) = Some (CV x.2)).
Proof.
  intros Hb Hd Ho. set (M := blockOf b). pose proof (blockOf_Some b Hb) as HM.
  destruct (Forall2_lookup_r _ _ _ _ _ Hblks HM) as (bk & Hbk & [HL Hh]).
  destruct (solo_pfor_n (fun i (_ : unit) mm => (forall l, is_Some (mm !! l) <-> is_Some (m0 !! l)) /\
      (forall r, r < nr -> blk r = b -> mm !! (aNbr, r) = Some (CN (cntR r (take i M)))) /\
      (forall q x, q < i -> M !! q = Some x -> mm !! (aIds, base b + q) = Some (CN x.1.2) /\ mm !! (aVals, base b + q) = Some (CV x.2)))
    (evE b)
    (fun i _ => pbind (lift (getI bk i)) (fun x =>
      Rd (aNbr, x.1.1) (fun c =>
      match c with
      | CN k => Wr (aNbr, x.1.1) (CN (k + 1)) (
                Wr (aIds, base b + i) (CN x.1.2) (
                Wr (aVals, base b + i) (CV x.2) (Ret tt)))
      | _ => Fail Uninit
      end))) (length M) 0 tt m) as ([] & mf & Hr & _ & H1 & H2).
  - intros i [] mm Hi (I0 & I1 & I2). destruct (lookup_lt_is_Some_2 M i) as [x Hx]; [lia|].
    destruct (Hrows b M x HM) as [Hxb Hxr]; [eapply elem_of_list_lookup_2, Hx|].
    unfold evE. fold M. rewrite Hx.
    assert (Dn : is_Some (mm !! (aNbr, x.1.1))) by (apply I0; rewrite m0_nbr by exact Hxr; eauto).
    assert (Di : is_Some (mm !! (aIds, base b + i))) by (apply I0, m0_ids; [exact Hb|fold M; lia]).
    assert (Dv : is_Some (mm !! (aVals, base b + i))) by (apply I0, m0_vals; [exact Hb|fold M; lia]).
    eexists tt, _. split.
    { eapply solo_lift; [apply getI_Some, Hh, Hx|]. eapply solo_rd; [apply I1; assumption|]. cbv beta iota.
      apply solo_wr; [exact Dn|]. apply solo_wr; [rewrite lookup_insert_ne by discriminate; exact Di|].
      apply solo_wr; [rewrite !lookup_insert_ne by discriminate; exact Dv|]. constructor. }
    split; [|split].
    + intros l. rewrite <- I0. destruct (decide (l = (aVals, base b + i))) as [->|N1]; [rewrite lookup_insert; split; eauto|rewrite lookup_insert_ne by congruence].
      destruct (decide (l = (aIds, base b + i))) as [->|N2]; [rewrite lookup_insert; split; eauto|rewrite lookup_insert_ne by congruence].
      destruct (decide (l = (aNbr, x.1.1))) as [->|N3]; [rewrite lookup_insert; split; eauto|rewrite lookup_insert_ne by congruence]. reflexivity.
    + intros r Hr Hrb. rewrite !(lookup_insert_ne _ (_, base b + i)) by discriminate. rewrite (take_S_r _ _ _ Hx), cntR_snoc.
      destruct (decide (x.1.1 = r)) as [<-|Hne]; [rewrite lookup_insert; reflexivity|]. rewrite lookup_insert_ne by congruence. rewrite (I1 r Hr Hrb). do 2 f_equal. lia.
    + intros q y Hq Hy. destruct (decide (q = i)) as [->|Hne].
      * rewrite Hx in Hy. injection Hy as <-. rewrite lookup_insert. rewrite lookup_insert_ne by discriminate. rewrite lookup_insert. auto.
      * assert (Hnq : forall a a' : nat, (a, base b + i) <> (a', base b + q)) by (intros a a' E; injection E; lia). destruct (I2 q y ltac:(lia) Hy) as [I3 I4].
        rewrite !lookup_insert_ne by (first [discriminate|apply Hnq]). auto.
  - split; [exact Hd|]. split; [|intros; lia]. intros r Hr Hrb. rewrite Ho; [apply m0_nbr, Hr|]. left. cbn. auto.
  - cbn [Nat.add] in H1, H2. exists mf. split; [|split].
    + unfold copyBlock. eapply solo_lift; [apply get_Some, Hcum, Hb|]. eapply solo_lift; [apply get_Some; rewrite Hns, list_lookup_fmap, HM; reflexivity|].
      eapply solo_lift; [apply get_Some, Hbk|]. fold M. unfold pfor. rewrite Nat.sub_0_r. exact Hr.
    + intros r Hr' Hrb. rewrite (H1 r Hr' Hrb), firstn_all. reflexivity.
    + intros q x Hx. apply H2; [eapply lookup_lt_Some, Hx|exact Hx].
Qed.

Lemma evC_own b l : b < nb -> ERd l ∈ evC b \/ EAny l ∈ evC b \/ (exists v, EWr l v ∈ evC b) -> ownC b l.
Proof.
  intros Hb Hin. assert (Hq : exists q e, q < length (blockOf b) /\ e ∈ evE b q /\ (e = ERd l \/ e = EAny l \/ exists v, e = EWr l v)).
  { destruct Hin as [Hin|[Hin|[v Hin]]]; apply elem_of_events in Hin as (q & Hq & Hin); eexists q, _; (split; [lia|]); (split; [exact Hin|]); eauto. }
  destruct Hq as (q & e & Hq & He & Hc). unfold evE in He. destruct (blockOf b !! q) as [x|] eqn:Hx; [|apply elem_of_nil in He; contradiction].
  destruct (Hrows b (blockOf b) x (blockOf_Some b Hb)) as [Hxb Hxr]; [eapply elem_of_list_lookup_2, Hx|].
  repeat (apply elem_of_cons in He as [He|He]); try (apply elem_of_nil in He; contradiction); subst e; destruct Hc as [Hc|[Hc|[v Hc]]]; try discriminate; injection Hc as <-; subst; unfold ownC; cbn; eauto 10.
Qed.

Lemma ownC_uniq b c l : b < nb -> c < nb -> ownC b l -> ownC c l -> b = c.
Proof.
  intros Hb Hc [(E1 & H1 & _)|(E1 & q & Hq & H1)] [(E2 & H2 & _)|(E2 & r & Hr & H2)].
  - congruence.
  - rewrite E1 in E2. destruct E2; discriminate.
  - rewrite E2 in E1. destruct E1; discriminate.
  - apply (base_uniq b c (blockOf b) (blockOf c) q r); [apply blockOf_Some, Hb|apply blockOf_Some, Hc|exact Hq|exact Hr|congruence].
Qed.

Hypothesis Hnr : forall r, r < nr -> blk r < nb.

Lemma cntR_all r : r < nr -> cntR r (mjoin Ms) = cntR r (blockOf (blk r)).
Proof.
  intros Hr. pose proof (Hnr r Hr) as Hb. pose proof (blockOf_Some _ Hb) as HM.
  assert (Hnone : forall l, (forall M, M ∈ l -> exists b, b <> blk r /\ Ms !! b = Some M) -> filter (fun x : triple => x.1.1 = r) (mjoin l) = []).
  { intros l Hl. apply filter_none. intros x Hx Ex. apply elem_of_list_join in Hx as (M & Hx & HMl). destruct (Hl M HMl) as (b & Hne & HMb).
    destruct (Hrows b M x HMb Hx) as [E _]. rewrite Ex in E. congruence. }
  unfold cntR. rewrite <- (take_drop_middle Ms (blk r) (blockOf (blk r)) HM) at 1. rewrite mjoin_app, mjoin_cons, !filter_app.
  rewrite (Hnone (take _ _)), (Hnone (drop _ _)), app_nil_r; [reflexivity| |].
  - intros M HMl. apply elem_of_list_lookup in HMl as [j Hj]. rewrite lookup_drop in Hj. exists (S (blk r) + j). split; [lia|exact Hj].
  - intros M HMl. apply elem_of_list_lookup in HMl as [j Hj]. apply lookup_take_Some in Hj as [Hj Hlt]. exists j. split; [lia|exact Hj].
Qed.

Definition outNbr : list nat := (fun r => cntR r (mjoin Ms)) <$> seq 0 nr.
Definition outIds : list nat := (fun x : triple => x.1.2) <$> mjoin Ms.
Definition outVals : list V := snd <$> mjoin Ms.

Lemma copy_parfor : parfor_ends (copyBlock cum ns blks) nb m0 (copyMem outNbr outIds outVals) /\ parfor_race_free (copyBlock cum ns blks) nb m0.
Proof.
  destruct (rmw_parfor (copyBlock cum ns blks) nb m0 evC ownC) as (m' & He & Hr & Hw & Hk).
  - intros b m Hb Hd Ho. destruct (copyBlock_solo b m Hb Hd Ho) as (mf & Hs & _). eauto.
  - exact evC_own.
  - exact ownC_uniq.
  - split; [|exact Hr]. assert (m' = copyMem outNbr outIds outVals) as <-; [|exact He].
    assert (HF : forall b, b < nb -> exists mf, mf = apply_evs (evC b) m0 /\
      (forall r, r < nr -> blk r = b -> mf !! (aNbr, r) = Some (CN (cntR r (blockOf b)))) /\
      (forall q x, blockOf b !! q = Some x -> mf !! (aIds, base b + q) = Some (CN x.1.2) /\ mf !! (aVals, base b + q) = Some (CV x.2))).
    { intros b Hb. destruct (copyBlock_solo b m0 Hb ltac:(reflexivity) ltac:(reflexivity)) as (mf & Hs & H1 & H2). exists mf. split; [apply (solo_mem _ _ _ _ _ Hs)|auto]. }
    assert (HW : forall b l, b < nb -> ownC b l -> m' !! l = apply_evs (evC b) m0 !! l).
    { intros b l Hb Hl. destruct (writes_dec l (evC b)) as [[v Hv]|Hno]; [apply (Hw b l v Hb Hv)|].
      rewrite apply_evs_notin by exact Hno. apply Hk. intros c v Hc Hv. assert (c = b) as ->; [|exact (Hno v Hv)].
      apply (ownC_uniq c b l Hc Hb); [apply evC_own; eauto|exact Hl]. }
    apply map_eq. intros [a p]. rewrite copyMem_lookup.
    destruct (decide (a = aNbr)) as [->|N1]; [|destruct (decide (a = aIds)) as [->|N2]; [|destruct (decide (a = aVals)) as [->|N3]]].
    + destruct (decide (p < nr)) as [Hp|Hp].
      * unfold outNbr. rewrite list_lookup_fmap, lookup_seq_lt by exact Hp. cbn. rewrite (cntR_all p Hp).
        destruct (HF (blk p) (Hnr p Hp)) as (mf & -> & H1 & _). rewrite <- (H1 p Hp eq_refl). apply HW; [apply Hnr, Hp|]. left. cbn. auto.
      * unfold outNbr. rewrite list_lookup_fmap, (proj2 (lookup_ge_None (seq 0 nr) p)) by (rewrite seq_length; lia). cbn. rewrite Hk.
        -- rewrite copyMem_lookup. cbn. rewrite (proj2 (lookup_ge_None _ _)) by (rewrite replicate_length; lia). reflexivity.
        -- intros b v Hb Hv. destruct (evC_own b (aNbr, p) Hb) as [(_ & _ & Hlt)|([E|E] & _)]; [eauto|cbn in Hlt; lia|discriminate|discriminate].
    + unfold outIds. rewrite list_lookup_fmap. destruct (mjoin Ms !! p) as [x|] eqn:Hx.
      * apply join_lookup_Some in Hx as (b & M & q & HM & Hx & ->). fold (base b). assert (Hb : b < nb) by (apply lookup_lt_Some in HM; lia).
        rewrite (blockOf_Some b Hb) in HM. injection HM as <-. destruct (HF b Hb) as (mf & -> & _ & H2). destruct (H2 q x Hx) as [H3 _]. cbn. rewrite <- H3.
        apply HW; [exact Hb|]. right. cbn. split; [auto|]. exists q. split; [eapply lookup_lt_Some, Hx|reflexivity].
      * apply lookup_ge_None in Hx. cbn. rewrite Hk.
        -- rewrite copyMem_lookup. cbn. rewrite (proj2 (lookup_ge_None ids0 p)) by lia. reflexivity.
        -- intros b v Hb Hv. destruct (evC_own b (aIds, p) Hb) as [(E & _)|(_ & q & Hq & E)]; [eauto|discriminate|]. cbn in E. subst p.
           pose proof (base_range b _ q (blockOf_Some b Hb) Hq). lia.
    + unfold outVals. rewrite list_lookup_fmap. destruct (mjoin Ms !! p) as [x|] eqn:Hx.
      * apply join_lookup_Some in Hx as (b & M & q & HM & Hx & ->). fold (base b). assert (Hb : b < nb) by (apply lookup_lt_Some in HM; lia).
        rewrite (blockOf_Some b Hb) in HM. injection HM as <-. destruct (HF b Hb) as (mf & -> & _ & H2). destruct (H2 q x Hx) as [_ H3]. cbn. rewrite <- H3.
        apply HW; [exact Hb|]. right. cbn. split; [auto|]. exists q. split; [eapply lookup_lt_Some, Hx|reflexivity].
      * apply lookup_ge_None in Hx. cbn. rewrite Hk.
        -- rewrite copyMem_lookup. cbn. rewrite (proj2 (lookup_ge_None vals0 p)) by lia. reflexivity.
        -- intros b v Hb Hv. destruct (evC_own b (aVals, p) Hb) as [(E & _)|(_ & q & Hq & E)]; [eauto|discriminate|]. cbn in E. subst p.
           pose proof (base_range b _ q (blockOf_Some b Hb) Hq). lia.
    + rewrite Hk.
      * rewrite copyMem_lookup. rewrite !decide_False by assumption. reflexivity.
      * intros b v Hb Hv. destruct (evC_own b (a, p) Hb) as [(E & _)|([E|E] & _)]; [eauto|exact (N1 E)|exact (N2 E)|exact (N3 E)].
Qed.

Lemma copied_iff o : copied cum ns blks nb m0 o <-> o = Ok (outNbr, outIds, outVals).
Proof.
  destruct copy_parfor as [He Hrf]. split.
  - intros (asg & Hs & Ho). destruct (He asg Hs) as (A1 & A2 & A3). cbv zeta in Ho. destruct Ho as [(f & Hf & ->)|[(Hn & ->)|[(Hl & ->)|(nbr & ids & vals & rs & Hf & ->)]]].
    + specialize (A1 _ Hf). discriminate.
    + exfalso. apply Hn, Hrf, Hs.
    + exfalso. exact (Hl A2).
    + specialize (A1 _ Hf). injection A1 as E _. apply copyMem_inj in E as (-> & -> & ->). reflexivity.
  - intros ->. exists [seq 0 nb]. split; [apply sched_one|]. destruct (He _ (sched_one nb)) as (A1 & A2 & A3). do 3 right. eexists _, _, _, _. split; [exact A3|reflexivity].
Qed.
End Copy.
