(** HeapSpGEMMImpl: contract of its row algorithms and proof of the driver. *)
From stdpp Require Import numbers.
From Coq Require Import NArith.
From Verif Require Import MemModel MemProofs BaseProofs ConcProofs ScanProofs WorkProofs Assemble DriverModel DriverBase DriverProofs RaceProofs
  LegacyScanModel LegacyScanProofs PropLegacyScan KernelBase ComplProofs HeapModel HeapProofs HeapStatements McaModel AlgModel AlgProofs McaProofs HeapImplModel HeapImplRowProofs HeapImplMcaProofs.
From Verif Require Import Base Spec.

Definition hflops {V} (A B : csr V) : list nat := nprods A B <$> seq 0 (rows A).

(** What the driver relies on: [rspec i] is what row [i] adds to the local output, [est i] the room set aside for it,
    [skips i] tells that the row returns without storing its count. *)
Record ha_ok {V} (alg : halg V) (A B M : csr V) (rspec : nat -> list (nat * V)) (est : nat -> nat) (skips : nat -> bool) : Prop := mkHaOk {
  hk_len : forall i, i < rows A -> length (rspec i) <= est i;
  hk_cols : forall i c v, i < rows A -> (c, v) ∈ rspec i -> c < cols B;
  hk_skip : forall i, i < rows A -> skips i = true -> rspec i = [];
  hk_est : forall rb re, rb <= re <= rows A -> ha_est alg (hflops A B) M rb re = Ok (sumOver est rb re);
  hk_run : forall rb re, rb <= re <= rows A -> exists aux0 (inv : ha_aux alg -> Prop), ha_alloc alg A M rb re = Ok aux0 /\ inv aux0 /\
    forall i aux cap L dn, rb <= i < re -> inv aux -> lrep cap L dn -> length dn + est i <= cap ->
      exists aux' L', ha_row alg A B M i aux L = Ok (aux', L', if skips i then None else Some (length (rspec i))) /\
        lrep cap L' (dn ++ rspec i) /\ inv aux' }.

Section Driver.
Context {V : Type} (alg : halg V) (A B M : csr V) (rspec : nat -> list (nat * V)) (est : nat -> nat) (skips : nat -> bool).
Hypothesis HwA : wf A.
Hypothesis HwB : wf B.
Hypothesis Hcols : cols A = rows B.
Hypothesis Hok : ha_ok alg A B M rspec est skips.
Hypothesis Hrows : 1 <= rows A.
Context (nt : nat) (Hnt : 1 <= nt).
Notation n := (rows A).
Notation pre := (pre rspec).
Notation ev := (@event loc (val V)).

Definition htotal : nat := sum_list (hflops A B).

Lemma hflops_length : length (hflops A B) = n.
Proof. unfold hflops. rewrite fmap_length, seq_length. reflexivity. Qed.

Definition hcum : list nat := (fun i => fold_left Nat.add (take i (hflops A B)) 0) <$> seq 0 n.
Lemma hcum_length : length hcum = n.
Proof. unfold hcum. rewrite fmap_length, seq_length. reflexivity. Qed.

Lemma hflops_ok : parfor_always (flopsRow A B) n (replicate n (Some 0)) (Some <$> hflops A B) htotal.
Proof.
  pose proof (calculateFlops_ok A B (replicate n (Some 0)) HwA HwB Hcols) as H.
  rewrite drop_ge, app_nil_r in H by (rewrite replicate_length; lia). rewrite fmap_Some_seq in H.
  apply H. rewrite replicate_length. lia.
Qed.

Lemma hscan_ok top nts : 1 <= nts -> nts <= n \/ (N.of_nat n < 2 ^ 17)%N ->
  lScan_always 0 Nat.add top (hflops A B) n nts (<[0 := Some 0]> (replicate n (Some 0))) (Some <$> hcum).
Proof.
  intros H1 H2.
  assert (HH : forall k, 1 <= k <= n -> lScan_always 0 Nat.add top (hflops A B) n k (<[0 := Some 0]> (replicate n (Some 0))) (Some <$> hcum)).
  { intros k Hk. pose proof (C38_legacy_scan_partial nat 0 Nat.add top (hflops A B) n k (<[0 := Some 0]> (replicate n (Some 0)))) as H.
    rewrite drop_ge, app_nil_r in H by (rewrite insert_length, replicate_length; lia). rewrite fmap_Some_seq in H.
    apply H; try lia. - rewrite insert_length, replicate_length. lia. - left. rewrite hflops_length. lia. }
  destruct H2 as [H2|H2]; [apply HH; lia|].
  specialize (HH 1 ltac:(lia)). unfold lScan_always in *. assert (E : lIsSeq n = true) by (apply N.ltb_lt; exact H2). rewrite E in *. exact HH.
Qed.

Section Cut.
Context (cum : list nat) (total : nat) (cut : nat -> nat).
Hypothesis Hcut0 : cut 0 = 0.
Hypothesis Hcutn : cut nt = n.
Hypothesis Hcutm : forall t, t < nt -> cut t <= cut (t + 1).
Hypothesis Hdist : forall t, t < nt -> distributeWork total cum n nt t = Ok (cut t, cut (t + 1)).
Notation tnv := (tnv rspec cut).
Notation tout := (tout rspec cut).

Lemma hcut_range t : t < nt -> cut t <= cut (t + 1) <= n.
Proof. intros Ht. split; [apply Hcutm, Ht|]. apply (cut_n rspec n nt cut Hnt Hcut0 Hcutn Hcutm); lia. Qed.

Lemma startH_nv i : i < n -> startMemH (V := V) n nt !! (aNv, i) = Some (VN 0).
Proof. intros H. unfold startMemH. rewrite lookup_union, !cells_lookup. simpl. rewrite lookup_replicate_2 by lia. reflexivity. Qed.
Lemma startH_tn t : t < nt -> startMemH (V := V) n nt !! (aTn, t) = Some (VN 0).
Proof. intros H. unfold startMemH. rewrite lookup_union, !cells_lookup. simpl. rewrite lookup_replicate_2 by lia. reflexivity. Qed.

(** ** First phase *)
Definition evR (i : nat) : list ev := if skips i then [] else [EWr (aNv, i) (VN (length (rspec i)))].
Definition hev1 (t : nat) : list ev := mjoin (evR <$> seq (cut t) (cut (t + 1) - cut t)) ++ [EWr (aTn, t) (VN (tnv t))].

Lemma numericH_solo iA iB iM e t : deref e iA = Ok A -> deref e iB = Ok B -> deref e iM = Ok M -> t < nt ->
  exists m', solo (startMemH n nt) (numericH alg iA iB iM nt (hflops A B) cum total e t) (hev1 t) (mkT1 (cut t) (cut (t + 1)) (tout t)) m'.
Proof.
  intros HA HB HM Ht. pose proof (hcut_range t Ht) as Hr.
  destruct (hk_run _ _ _ _ _ _ _ Hok (cut t) (cut (t + 1)) Hr) as (aux0 & inv & Hal & Hi0 & Hrun).
  set (cap := sumOver est (cut t) (cut (t + 1))).
  set (Inv := fun i (s : ha_aux alg * lbuf V * nat) (m : gmap loc (val V)) =>
    inv (fst (fst s)) /\ lrep cap (snd (fst s)) (rowsOf rspec (cut t) i) /\ snd s = length (rowsOf rspec (cut t) i) /\
    forall l, is_Some (startMemH (V := V) n nt !! l) -> is_Some (m !! l)).
  assert (Hloop : exists s' m', solo (startMemH n nt) (pfor_n (cut (t + 1) - cut t) (cut t) (rowH alg A B M) (aux0, lnew cap, 0))
      (mjoin (evR <$> seq (cut t) (cut (t + 1) - cut t))) s' m' /\ Inv (cut t + (cut (t + 1) - cut t)) s' m').
  { apply solo_pfor_n.
    - intros i [[a L] c] m Hi (Ha & HL & Hc & Hd). cbn [fst snd] in Ha, HL, Hc. subst c.
      assert (Hin : i < n) by lia.
      destruct (Hrun i a cap L (rowsOf rspec (cut t) i)) as (a' & L' & Hrow & HL' & Ha'); [lia|exact Ha|exact HL| |].
      { rewrite rowsOf_length by lia. unfold cap.
        assert (H1 : pre i - pre (cut t) <= sumOver est (cut t) i).
        { rewrite pre_sumOver by lia. apply sumOver_le. intros j Hj. apply (hk_len _ _ _ _ _ _ _ Hok). lia. }
        pose proof (sumOver_S est (cut t) i ltac:(lia)).
        pose proof (sumOver_mono est (cut t) (S i) (cut (t + 1)) ltac:(lia)) as H2. lia. }
      unfold rowH, evR. rewrite <- rowsOf_S in HL' by lia.
      destruct (skips i) eqn:Es.
      + pose proof (hk_skip _ _ _ _ _ _ _ Hok i Hin Es) as Hnil.
        exists (a', L', length (rowsOf rspec (cut t) i)), m. split; [eapply solo_lift; [exact Hrow|]; constructor|].
        unfold Inv. cbn [fst snd]. split; [exact Ha'|]. split; [exact HL'|]. split; [|exact Hd]. rewrite rowsOf_S, Hnil, app_nil_r by lia. reflexivity.
      + assert (Hdom : is_Some (m !! (aNv, i))) by (apply Hd; rewrite (startH_nv i Hin); eauto).
        exists (a', L', length (rowsOf rspec (cut t) (S i))), (<[(aNv, i) := VN (length (rspec i))]> m). split.
        * eapply solo_lift; [exact Hrow|]. cbn beta iota. rewrite (rowsOf_S rspec (cut t) i), app_length by lia. apply solo_wr; [exact Hdom|constructor].
        * unfold Inv. cbn [fst snd]. split; [exact Ha'|]. split; [exact HL'|]. split; [reflexivity|].
          intros l Hl. destruct (decide (l = (aNv, i))) as [->|Hne]; [rewrite lookup_insert; eauto|rewrite lookup_insert_ne by congruence; auto].
    - unfold Inv. cbn [fst snd]. rewrite rowsOf_nil by lia. split; [exact Hi0|]. split; [apply lrep_new|]. auto. }
  destruct Hloop as ([[a L] c] & m' & Hs & Ha & HL & Hc & Hd). cbn [fst snd] in HL, Hc. subst c.
  replace (cut t + (cut (t + 1) - cut t)) with (cut (t + 1)) in * by lia.
  exists (<[(aTn, t) := VN (tnv t)]> m'). unfold numericH.
  eapply solo_lift; [exact HA|]. eapply solo_lift; [exact HB|]. eapply solo_lift; [exact HM|].
  eapply solo_lift; [apply Hdist, Ht|]. cbn beta iota. eapply solo_lift; [apply (hk_est _ _ _ _ _ _ _ Hok), Hr|].
  eapply solo_lift; [exact Hal|].
  unfold hev1. eapply solo_bind; [exact Hs|]. cbn beta iota.
  change (rowsOf rspec (cut t) (cut (t + 1))) with (tout t) in *. rewrite <- (tout_length rspec nt cut Hcutm t Ht).
  apply solo_wr; [apply Hd; rewrite (startH_tn t Ht); eauto|].
  eapply solo_lift; [eapply localOut_ok, HL|]. constructor.
Qed.

Lemma evR_in i x : x ∈ evR i -> x = EWr (aNv, i) (VN (length (rspec i))).
Proof. unfold evR. destruct (skips i); intros H; [inversion H|apply elem_of_list_singleton, H]. Qed.
Lemma hev1_in t x : x ∈ hev1 t -> (exists i, cut t <= i < cut (t + 1) /\ skips i = false /\ x = EWr (aNv, i) (VN (length (rspec i)))) \/ x = EWr (aTn, t) (VN (tnv t)).
Proof.
  unfold hev1. rewrite elem_of_app, elem_of_events. intros [(i & Hi & Hin)|Hin]; [left|right; apply elem_of_list_singleton, Hin].
  exists i. split; [lia|]. unfold evR in Hin. destruct (skips i); [inversion Hin|]. split; [reflexivity|apply elem_of_list_singleton, Hin].
Qed.
Lemma hev1_own t l v : EWr l v ∈ hev1 t -> own1 cut t l /\ wvf rspec n cut l = Some v.
Proof.
  intros H. apply hev1_in in H as [(i & Hi & _ & E)|E]; injection E as -> ->.
  - split; [|reflexivity]. left. auto.
  - split; [|reflexivity]. right. auto.
Qed.
Lemma hev1_rd t l : ERd l ∉ hev1 t.
Proof. intros H. apply hev1_in in H as [(i & Hi & _ & E)|E]; discriminate. Qed.
Lemma hev1_any t l : EAny l ∉ hev1 t.
Proof. intros H. apply hev1_in in H as [(i & Hi & _ & E)|E]; discriminate. Qed.

Notation hstate := (state1 rspec cut).

Lemma phase1H iA iB iM e ss : deref e iA = Ok A -> deref e iB = Ok B -> deref e iM = Ok M -> length ss = nt ->
  (exists m1, always (startMemH n nt, imap (fun t (_ : t1 (V := V)) => numericH alg iA iB iM nt (hflops A B) cum total e t) ss) m1 (hstate <$> seq 0 nt) /\
    (forall i, i < n -> m1 !! (aNv, i) = Some (VN (length (rspec i)))) /\ (forall t, t < nt -> m1 !! (aTn, t) = Some (VN (tnv t)))) /\
  race_free (startMemH n nt, imap (fun t (_ : t1 (V := V)) => numericH alg iA iB iM nt (hflops A B) cum total e t) ss).
Proof.
  intros HA HB HM Hl. split.
  - destruct (owned_phase nt ss (fun e t (_ : t1 (V := V)) => numericH alg iA iB iM nt (hflops A B) cum total e t) e (startMemH n nt) hev1 hstate (own1 cut) (wvf rspec n cut) Hl)
      as (m1 & H1 & H2 & H3).
    + intros t s Ht _. apply numericH_solo; assumption.
    + intros t l v Ht Hin. apply hev1_own, Hin.
    + intros t u l _ _ Hin. exfalso. apply (hev1_rd t l Hin).
    + intros t u l. apply (own1_excl rspec n nt cut Hnt Hcut0 Hcutn Hcutm).
    + exists m1. split; [exact H1|]. split.
      * intros i Hi. destruct (skips i) eqn:Es.
        -- rewrite H3; [rewrite (startH_nv i Hi), (hk_skip _ _ _ _ _ _ _ Hok i Hi Es); reflexivity|].
           intros t v Ht Hin. apply hev1_in in Hin as [(j & Hj & Hsj & E)|E]; injection E as E1 E2; [|discriminate].
           congruence.
        -- destruct (cut_cover cut nt i Hcut0 ltac:(lia)) as (t & Ht & Hc). apply (H2 t _ _ Ht).
           unfold hev1. apply elem_of_app. left. apply elem_of_events. exists i. split; [lia|]. unfold evR. rewrite Es. left.
      * intros t Ht. apply (H2 t _ _ Ht). unfold hev1. apply elem_of_app. right. left.
  - apply (owned_race_free nt ss (fun e t (_ : t1 (V := V)) => numericH alg iA iB iM nt (hflops A B) cum total e t) e (startMemH n nt) hev1 hstate (own1 cut) Hl).
    + intros t s Ht _. apply numericH_solo; assumption.
    + intros t l v Ht Hin. apply (hev1_own t l v Hin).
    + intros t u l _ _ Hin. exfalso. apply (hev1_rd t l Hin).
    + intros t u l _ _ Hin. exfalso. apply (hev1_any t l Hin).
    + intros t u l. apply (own1_excl rspec n nt cut Hnt Hcut0 Hcutn Hcutm).
Qed.

(** ** The master's block *)
Lemma masterH_ok (iC nc : nat) (e : gmap nat (obj V)) (m : gmap loc (val V)) :
  dimsOf e iC = Ok (n, nc) ->
  (forall i, i < n -> m !! (aNv, i) = Some (VN (length (rspec i)))) ->
  (forall t, t < nt -> m !! (aTn, t) = Some (VN (tnv t))) ->
  exists m', masterH iC nt e m = Ok (<[iC := OFresh n nc (pre n)]> e, m') /\ mem3 rspec n nt cut m'.
Proof.
  intros HC Hnv Htn. unfold masterH. rewrite HC. cbn [bind].
  destruct (for_inv (fun t s => s = pre (cut t)) (fun t s => match m !! (aTn, t) with Some (VN x) => Ok (s + x) | Some _ => Err Uninit | None => Err OutOfBounds end) 0 nt 0)
    as (s & -> & ->).
  - lia.
  - rewrite Hcut0. reflexivity.
  - intros t s Ht ->. rewrite Htn by lia. eexists. split; [reflexivity|]. unfold DriverBase.tnv.
    pose proof (pre_le rspec (cut t) (cut (t + 1)) (Hcutm t ltac:(lia))). lia.
  - cbn [bind]. rewrite Hcutn. eexists. split; [reflexivity|].
    constructor.
    + intros i Hi. rewrite lookup_union_r; [apply Hnv, Hi|]. rewrite !lookup_union_None, !cells_lookup. auto.
    + intros i Hi. rewrite lookup_union_r; [apply Htn, Hi|]. rewrite !lookup_union_None, !cells_lookup. auto.
    + intros i Hi. rewrite !lookup_union, !cells_lookup. simpl. rewrite lookup_replicate_2 by lia. destruct (m !! _); simpl; eauto.
    + intros i Hi. rewrite !lookup_union, !cells_lookup. simpl. rewrite lookup_replicate_2 by lia. destruct (m !! _); simpl; eauto.
    + intros i Hi. rewrite !lookup_union, !cells_lookup. simpl. rewrite lookup_replicate_2 by lia. destruct (m !! _); simpl; eauto.
Qed.

(** ** Last phase *)
Definition hev3 (t : nat) : list ev :=
  ev_sro rspec n nt cut t ++ (ev_pos cut t :: ev_store aCi (pre (cut t)) (cis (tout t)) ++
  (ev_pos cut t :: ev_store aVa (pre (cut t)) (vas (tout t)))).

Lemma outputH_solo iC nc e m t : e !! iC = Some (OFresh n nc (pre n)) -> mem3 rspec n nt cut m -> t < nt ->
  exists m', solo m (outputH iC nt e t (hstate t)) (hev3 t) (hstate t) m'.
Proof.
  intros HE Hm Ht. destruct (setRowOffsets_solo rspec n nt cut Hnt Hcut0 Hcutn Hcutm m t Ht Hm) as (m1 & Hs1 & Hm1 & Hk1).
  assert (L : length (tout t) = tnv t) by (apply (tout_length rspec nt cut Hcutm); exact Ht).
  assert (LC : length (cis (tout t)) = tnv t) by (unfold cis; rewrite fmap_length; exact L).
  assert (LV : length (vas (tout t)) = tnv t) by (unfold vas; rewrite fmap_length; exact L).
  destruct (copyTo_solo rspec n nt cut Hnt Hcut0 Hcutn Hcutm aCi m1 t (cis (tout t)) (VN (pre (cut t))) Ht Hm1 ltac:(auto) LC ltac:(auto)) as (m2 & Hs2).
  assert (Hown2 : forall a i v, EWr (a, i) v ∈ ev_store aCi (pre (cut t)) (cis (tout t)) -> a = aCi) by (intros a i v Hin; apply ev_store_elem in Hin; tauto).
  assert (Hm2 : mem3 rspec n nt cut m2).
  { eapply mem3_solo; [exact Hs2|exact Hm1|]. intros a i v Hin. apply Hown2 in Hin. subst. left. split; discriminate. }
  assert (Hk2 : cut t < cut (t + 1) -> m2 !! (aRp, cut t) = Some (VN (pre (cut t)))).
  { intros Hlt. rewrite (solo_keep _ _ _ _ _ _ Hs2); [apply Hk1, Hlt|]. intros v Hin. apply Hown2 in Hin. discriminate. }
  destruct (copyTo_solo rspec n nt cut Hnt Hcut0 Hcutn Hcutm aVa m2 t (vas (tout t)) (VN (pre (cut t))) Ht Hm2 ltac:(auto) LV ltac:(auto)) as (m3 & Hs3).
  exists m3. unfold outputH. eapply solo_lift; [unfold fresh_dims; rewrite HE; reflexivity|]. cbn beta iota. unfold state1 at 1 2. cbn [t1_rb t1_re].
  unfold hev3. eapply solo_bind; [exact Hs1|].
  unfold copyValuesToC. cbn [state1 t1_rb t1_out]. rewrite Nat.ltb_irrefl, take_ge by lia.
  change ((fun e0 => VN e0.1) <$> tout t) with (cis (tout t)). change ((fun e0 => VV e0.2) <$> tout t) with (vas (tout t)).
  rewrite <- (app_nil_r (ev_pos cut t :: _)). eapply solo_bind; [|constructor].
  assert (Hcp : forall a (l : list (val V)) v, length l = tnv t -> (cut t < cut (t + 1) -> v = VN (pre (cut t))) -> copyTo a v l = copyTo a (VN (pre (cut t))) l).
  { intros a l v Hl Hv. destruct (decide (cut t < cut (t + 1))) as [Hlt|Hge]; [rewrite (Hv Hlt); reflexivity|].
    destruct l; [reflexivity|]. exfalso. rewrite (tout_nil rspec n nt cut Hnt Hcut0 Hcutn Hcutm t Ht Hge) in L. simpl in *. lia. }
  apply (solo_pos rspec n nt cut Hnt Hcut0 Hcutn Hcutm m1); [exact Ht|exact Hm1|exact Hk1|]. intros v Hv. rewrite (Hcp aCi (cis (tout t)) v LC Hv).
  eapply solo_bind; [exact Hs2|].
  apply (solo_pos rspec n nt cut Hnt Hcut0 Hcutn Hcutm m2); [exact Ht|exact Hm2|exact Hk2|]. intros w Hw. rewrite (Hcp aVa (vas (tout t)) w LV Hw).
  exact Hs3.
Qed.

Lemma hev3_in t x : x ∈ hev3 t -> x ∈ ev3 A rspec nt cut t.
Proof. unfold hev3, ev3. rewrite !elem_of_app, !elem_of_cons, !elem_of_app, !elem_of_cons. tauto. Qed.

Lemma hev3_any t u l : (forall t, t + 1 < nt -> cut t < cut (t + 1)) -> t < nt -> u < nt -> EAny l ∈ hev3 t -> own3 rspec n nt cut u l -> u = t.
Proof.
  intros Hne Ht Hu. unfold hev3. rewrite !elem_of_app, !elem_of_cons, !elem_of_app, !elem_of_cons.
  assert (Hp : EAny l = ev_pos (V := V) cut t -> own3 rspec n nt cut u l -> u = t).
  { unfold ev_pos. destruct (Nat.ltb_spec (cut t) (cut (t + 1))) as [|Hge]; [discriminate|]. intros E. injection E as ->.
    destruct (decide (t + 1 < nt)) as [Hlt|Hl]; [specialize (Hne t Hlt); lia|]. assert (t = nt - 1) by lia.
    assert (Hn : cut t = n).
    { pose proof (Hcutm t Ht). replace (t + 1) with nt in * by lia. lia. }
    intros [[H' _]|[[_ [Hr|[_ Hr]]]|[[H'|H'] _]]]; try discriminate; [|congruence].
    assert (cut (u + 1) <= n); [|lia]. rewrite <- Hcutn. apply (cut_le cut nt); [exact Hcutm|lia]. }
  intros [Hin|[Hin|[Hin|[Hin|Hin]]]] Ho; try (exfalso; eapply ev_store_any, Hin); auto.
  exfalso. apply (ev_sro_any rspec n nt cut t l Hin).
Qed.

Lemma phase3H iC nc e m : e !! iC = Some (OFresh n nc (pre n)) -> mem3 rspec n nt cut m ->
  (exists m', always (m, imap (outputH iC nt e) (hstate <$> seq 0 nt)) m' (hstate <$> seq 0 nt) /\
     outMatrix e m' iC = Some (assemble rspec n nc)) /\
  ((forall t, t + 1 < nt -> cut t < cut (t + 1)) -> race_free (m, imap (outputH iC nt e) (hstate <$> seq 0 nt))).
Proof.
  intros He Hm. assert (Hl : length (hstate <$> seq 0 nt) = nt) by (rewrite fmap_length, seq_length; reflexivity).
  assert (Hs : forall t s, t < nt -> (hstate <$> seq 0 nt) !! t = Some s -> exists mf, solo m (outputH iC nt e t s) (hev3 t) (hstate t) mf).
  { intros t s Ht Hls. rewrite list_lookup_fmap, lookup_seq_lt in Hls by exact Ht. injection Hls as <-. eapply outputH_solo; eauto. }
  split.
  - destruct (owned_phase nt (hstate <$> seq 0 nt) (outputH iC nt) e m hev3 hstate (own3 rspec n nt cut) (wvf rspec n cut) Hl Hs)
      as (m' & H1 & H2 & H3).
    + intros t l v Ht Hin. apply hev3_in in Hin. eapply ev3_own; eassumption.
    + intros t u l Ht Hu Hin. apply hev3_in in Hin. eapply ev3_rd; eassumption.
    + intros t u l. apply (own3_excl rspec n nt cut Hnt Hcut0 Hcutn Hcutm).
    + exists m'. split; [exact H1|]. eapply (out_cells A rspec nt Hnt cut Hcut0 Hcutn Hcutm m' hev3 H2); [| | |exact He]; intros t x Ht Hx; unfold hev3;
        rewrite !elem_of_app, !elem_of_cons, !elem_of_app, !elem_of_cons; tauto.
  - intros Hne. apply (owned_race_free nt (hstate <$> seq 0 nt) (outputH iC nt) e m hev3 hstate (own3 rspec n nt cut) Hl Hs).
    + intros t l v Ht Hin. apply hev3_in in Hin. eapply ev3_own; eassumption.
    + intros t u l Ht Hu Hin. apply hev3_in in Hin. eapply ev3_rd; eassumption.
    + intros t u l Ht Hu Hin. apply (hev3_any t u l Hne Ht Hu Hin).
    + intros t u l. apply (own3_excl rspec n nt cut Hnt Hcut0 Hcutn Hcutm).
Qed.
End Cut.

Lemma hReset_ok iA iB iM iC C0 (s : gmap nat (obj V)) :
  s !! iA = Some (OMat A) -> s !! iB = Some (OMat B) -> s !! iM = Some (OMat M) -> s !! iC = Some (OMat C0) ->
  iC <> iA -> iC <> iB -> iC <> iM ->
  exists x, hResetC iA iB iC s = Ok (<[iC := x]> s) /\ dimsOf (<[iC := x]> s) iC = Ok (n, cols B).
Proof.
  intros HA HB HM HC H1 H2 H3. unfold hResetC. rewrite (deref_mat _ _ _ HC). cbn [bind].
  assert (HA' : forall y, deref (<[iC := y]> s) iA = Ok A) by (intros y; apply deref_mat; rewrite lookup_insert_ne by congruence; exact HA).
  assert (HB' : forall y, deref (<[iC := y]> s) iB = Ok B) by (intros y; apply deref_mat; rewrite lookup_insert_ne by congruence; exact HB).
  destruct (Nat.eqb_spec (nnz C0) 0).
  - rewrite (deref_mat _ _ _ HA), bind_Ok, (deref_mat _ _ _ HB), bind_Ok. eexists. split; [reflexivity|]. unfold dimsOf. rewrite lookup_insert. reflexivity.
  - rewrite HA', bind_Ok, HB', bind_Ok, insert_insert. eexists. split; [reflexivity|]. unfold dimsOf. rewrite lookup_insert. reflexivity.
Qed.

Theorem driverH_ok top nts iA iB iM iC C0 (s : gmap nat (obj V)) :
  1 <= nts -> nts <= n \/ (N.of_nat n < 2 ^ 17)%N ->
  s !! iA = Some (OMat A) -> s !! iB = Some (OMat B) -> s !! iM = Some (OMat M) -> s !! iC = Some (OMat C0) ->
  iC <> iA -> iC <> iB -> iC <> iM ->
  HeapSpGEMMImpl_always alg top nts iA iB iM iC nt s (<[iC := OMat (assemble rspec n (cols B))]> s).
Proof.
  intros Hn1 Hn2 HA HB HM HC H1 H2 H3. destruct (hReset_ok iA iB iM iC C0 s HA HB HM HC H1 H2 H3) as (x & Hx & Hdim).
  set (s1 := <[iC := x]> s) in *.
  assert (HA1 : s1 !! iA = Some (OMat A)) by (unfold s1; rewrite lookup_insert_ne by congruence; exact HA).
  assert (HB1 : s1 !! iB = Some (OMat B)) by (unfold s1; rewrite lookup_insert_ne by congruence; exact HB).
  assert (HM1 : s1 !! iM = Some (OMat M)) by (unfold s1; rewrite lookup_insert_ne by congruence; exact HM).
  exists s1. split; [exact Hx|]. exists A, B. split; [apply deref_mat, HA1|]. split; [apply deref_mat, HB1|].
  exists (hflops A B), htotal. split; [exact hflops_ok|].
  exists (<[0 := Some 0]> (replicate n (Some 0))), hcum. split; [apply set_Ok; rewrite replicate_length; lia|]. split; [apply hscan_ok; assumption|].
  replace (htotal * 2 / 2) with htotal by (rewrite Nat.div_mul; lia).
  destruct (distribute_ok htotal hcum n nt ltac:(rewrite hcum_length; lia) Hnt) as (cut & C0' & Cn & Cm & Hd).
  destruct (phase1H hcum htotal cut C0' Cn Cm Hd iA iB iM s1 (replicate nt (mkT1 0 0 []))) as [(m1 & P1 & Hnv & Htn) _];
    [apply deref_mat; assumption..|apply replicate_length|].
  destruct (masterH_ok hcum htotal cut C0' Cn Cm Hd iC (cols B) s1 m1 Hdim Hnv Htn) as (m2 & Hi & Hm2).
  set (e := <[iC := OFresh n (cols B) (pre n)]> s1) in *.
  destruct (phase3H hcum htotal cut C0' Cn Cm Hd iC (cols B) e m2) as [(m3 & P3 & Ho) _]; [apply lookup_insert|exact Hm2|].
  exists e, m3, (state1 rspec cut <$> seq 0 nt). split.
  - unfold regionH. eapply ra_par; [exact P1|].
    destruct (cons_states A Hrows nt Hnt (state1 rspec cut)) as (s0 & k & Es). rewrite Es. eapply ra_master; [exact Hi|]. rewrite <- Es.
    eapply ra_par; [exact P3|]. constructor.
  - exists (assemble rspec n (cols B)). split; [exact Ho|]. unfold e, s1. rewrite !insert_insert. reflexivity.
Qed.

Lemma regionH_race iA iB iM iC (s : gmap nat (obj V)) cum total cut :
  s !! iA = Some (OMat A) -> s !! iB = Some (OMat B) -> s !! iM = Some (OMat M) -> dimsOf s iC = Ok (n, cols B) ->
  cut 0 = 0 -> cut nt = n -> (forall t, t < nt -> cut t <= cut (t + 1)) ->
  (forall t, t < nt -> distributeWork total cum n nt t = Ok (cut t, cut (t + 1))) ->
  region_race_free (regionH alg iA iB iM iC nt (hflops A B) cum total) s (startMemH n nt) (replicate nt (mkT1 0 0 [])) <->
  (forall t, t + 1 < nt -> cut t < cut (t + 1)).
Proof.
  intros HA HB HM HC C0 Cn Cm Hd.
  destruct (phase1H cum total cut C0 Cn Cm Hd iA iB iM s (replicate nt (mkT1 0 0 []))) as [(m1 & H1 & Hnv & Htn) Hrf1];
    [apply deref_mat; assumption..|apply replicate_length|].
  destruct (masterH_ok cum total cut C0 Cn Cm Hd iC (cols B) s m1 HC Hnv Htn) as (m2 & Hi & Hm2).
  set (e := <[iC := OFresh n (cols B) (pre n)]> s) in *.
  assert (He : e !! iC = Some (OFresh n (cols B) (pre n))) by apply lookup_insert.
  destruct (cons_states A Hrows nt Hnt (state1 rspec cut)) as (s0 & k & Es). rewrite Es in H1.
  unfold regionH. erewrite (region3_race _ _ (fun _ e m => masterH iC nt e m) _ _ _ _ _ _ _ _ Hrf1 H1 Hi), <- Es.
  apply (nonempty_iff A nt Hnt Hrows).
  - apply (phase3H cum total cut C0 Cn Cm Hd iC (cols B) e m2 He Hm2).
  - intros t Ht Hge. destruct (sro_conflict A rspec nt Hnt Hrows cut C0 Cn Cm t Ht Hge) as (u & v & b1 & b2 & Hu & Hne & Eu).
    destruct (outputH_solo cum total cut C0 Cn Cm Hd iC (cols B) e m2 t He Hm2 ltac:(lia)) as (mt & St).
    destruct (outputH_solo cum total cut C0 Cn Cm Hd iC (cols B) e m2 u He Hm2 Hu) as (mu & Su).
    eapply (solo_race _ _ t u) with (a1 := ev_sro rspec n nt cut t).
    + exact Hne.
    + rewrite list_lookup_imap, list_lookup_fmap, lookup_seq_lt by lia. reflexivity.
    + rewrite list_lookup_imap, list_lookup_fmap, lookup_seq_lt by lia. reflexivity.
    + exact St.
    + exact Su.
    + unfold hev3. unfold ev_pos at 1. destruct (Nat.ltb_spec (cut t) (cut (t + 1))); [lia|]. reflexivity.
    + intros l' v' Hin. revert Hin. apply (sro_reads A rspec nt Hnt Hrows cut); assumption.
    + unfold hev3. rewrite Eu, <- app_assoc. reflexivity.
Qed.
End Driver.

(** ** The row algorithms meet the contract *)
Section Algs.
Context {V : Type} (mul add : V -> V -> V).

Lemma hflops_get (A B : csr V) i : i < rows A -> get (hflops A B) i = Ok (nprods A B i).
Proof. intros H. apply get_Some. unfold hflops. rewrite list_lookup_fmap, lookup_seq_lt by exact H. reflexivity. Qed.

Lemma heapAlloc_ok (A M : csr V) rb re : wf A -> rb <= re <= rows A ->
  heapAlloc A M rb re = Ok (mkHeap [] (maxOver (fun i => length (row_entries A i)) rb re) 0).
Proof.
  intros HA Hr. unfold heapAlloc. set (f := fun i => length (row_entries A i)).
  destruct (for_inv (fun i sz => sz = maxOver f rb i) (fun i sz => la <- rowLen A i ;; Ok (if sz <? la then la else sz)) rb re 0) as (s & -> & ->).
  - lia.
  - unfold maxOver. rewrite Nat.sub_diag. reflexivity.
  - intros i s Hi ->. rewrite (rowLen_ok A i HA ltac:(lia)), bind_Ok. eexists. split; [reflexivity|]. rewrite Nat.add_1_r.
    rewrite maxOver_S by lia. unfold f. destruct (Nat.ltb_spec (maxOver (fun i => length (row_entries A i)) rb i) (length (row_entries A i))); lia.
  - reflexivity.
Qed.

Lemma flagsAlloc_ok (A M : csr V) rb re : wf M -> rb <= re <= rows M ->
  flagsAlloc A M rb re = Ok (replicate (maxOver (fun i => length (row_entries M i)) rb re) false).
Proof.
  intros HA Hr. unfold flagsAlloc. set (f := fun i => length (row_entries M i)).
  destruct (for_inv (fun i sz => sz = maxOver f rb i) (fun i sz => la <- rowLen M i ;; Ok (if sz <? la then la else sz)) rb re 0) as (s & -> & ->).
  - lia.
  - unfold maxOver. rewrite Nat.sub_diag. reflexivity.
  - intros i s Hi ->. rewrite (rowLen_ok M i HA ltac:(lia)), bind_Ok. eexists. split; [reflexivity|]. rewrite Nat.add_1_r.
    rewrite maxOver_S by lia. unfold f. destruct (Nat.ltb_spec (maxOver (fun i => length (row_entries M i)) rb i) (length (row_entries M i))); lia.
  - reflexivity.
Qed.

Definition mEst (A B M : csr V) (i : nat) : nat := Nat.min (nprods A B i) (length (row_cols M i)).

Lemma maskEst_ok (A B M : csr V) rb re : wf M -> rows M = rows A -> rb <= re <= rows A ->
  maskEst (hflops A B) M rb re = Ok (sumOver (mEst A B M) rb re).
Proof.
  intros HM HMA Hr. unfold maskEst.
  match goal with |- for_ rb re ?bd _ = _ =>
  destruct (for_inv (fun i sz => sz = sumOver (mEst A B M) rb i) bd rb re 0) as (s & -> & ->) end.
  - lia.
  - unfold sumOver. rewrite Nat.sub_diag. reflexivity.
  - intros i s Hi ->. rewrite (hflops_get A B i ltac:(lia)), bind_Ok, (rowLen_ok M i HM ltac:(lia)), bind_Ok. eexists. split; [reflexivity|].
    rewrite Nat.add_1_r, sumOver_S by lia. unfold mEst. rewrite row_cols_length. reflexivity.
  - reflexivity.
Qed.

Lemma heapEst_wrap (fl : list nat) (M : csr V) (f : nat -> nat) rb re : rb <= re -> (forall i, rb <= i < re -> fl !! i = Some (f i)) ->
  heapEst fl M rb re = let k := (N.of_nat (sumOver f rb re) mod 2 ^ 32)%N in if (k <? 2 ^ 31)%N then Ok (N.to_nat k) else Err OutOfBounds.
Proof.
  intros Hr Hf. unfold heapEst.
  match goal with |- (s <- for_ rb re ?bd _ ;; _) = _ =>
  destruct (for_inv (fun i s => s = (N.of_nat (sumOver f rb i) mod 2 ^ 32)%N) bd rb re 0%N) as (s & -> & ->) end.
  - lia.
  - unfold sumOver. rewrite Nat.sub_diag. reflexivity.
  - intros i s Hi ->. rewrite (get_Some _ _ _ (Hf i Hi)), bind_Ok. eexists. split; [reflexivity|].
    rewrite Nat.add_1_r, sumOver_S by lia. rewrite Nat2N.inj_add. rewrite N.add_mod_idemp_l; [reflexivity|discriminate].
  - reflexivity.
Qed.

Lemma sumOver_total (A B : csr V) rb re : rb <= re <= rows A -> sumOver (nprods A B) rb re <= sum_list (hflops A B).
Proof.
  intros Hr. unfold hflops.
  replace (seq 0 (rows A)) with (seq 0 rb ++ seq rb (re - rb) ++ seq re (rows A - re)).
  - rewrite !fmap_app, !sum_list_app. unfold sumOver. lia.
  - replace (seq 0 (rows A)) with (seq 0 (rb + ((re - rb) + (rows A - re)))) by (f_equal; lia).
    rewrite !seq_app. f_equal. f_equal. f_equal. lia.
Qed.

Lemma heapEst_ok (A B M : csr V) rb re : rb <= re <= rows A -> (N.of_nat (sum_list (hflops A B)) < 2 ^ 31)%N ->
  heapEst (hflops A B) M rb re = Ok (sumOver (nprods A B) rb re).
Proof.
  intros Hr Hb. rewrite (heapEst_wrap _ _ (nprods A B)); [|lia|].
  - cbv zeta. pose proof (sumOver_total A B rb re Hr). assert (Hs : (N.of_nat (sumOver (nprods A B) rb re) < 2 ^ 31)%N) by lia.
    rewrite N.mod_small by lia. rewrite (proj2 (N.ltb_lt _ _) Hs), Nat2N.id. reflexivity.
  - intros i Hi. unfold hflops. rewrite list_lookup_fmap, lookup_seq_lt by lia. reflexivity.
Qed.

Lemma touched_range (A B : csr V) i c : wf B -> c ∈ touched_cols A B i -> c < cols B.
Proof.
  intros HB. unfold touched_cols. intros Hin. apply elem_of_list_join in Hin as (l & Hc & Hl). apply elem_of_list_fmap in Hl as (k & -> & _). eapply row_cols_range; eassumption.
Qed.

(** ** BasicHeap and HeapLinear *)
Definition lin_row (A B : csr V) (i : nat) (l : list (nat * V)) : Prop :=
  StronglySorted lt (fst <$> l) /\ (forall j, j ∈ (fst <$> l) <-> j ∈ touched_cols A B i) /\
  forall j v, (j, v) ∈ l -> sum_in_some_order mul add A B i j v.

Lemma linear_contract thr (A B M : csr V) : wf A -> wf B -> cols A = rows B -> sorted_rows B -> (N.of_nat (sum_list (hflops A B)) < 2 ^ 31)%N ->
  exists rspec, ha_ok (linearAlg mul add thr) A B M rspec (nprods A B) (fun _ => false) /\ forall i, i < rows A -> lin_row A B i (rspec i).
Proof.
  intros HA HB Hin HsB Hb.
  destruct (choose_rows (rows A) (fun i l => lin_row A B i l /\ length l <= length (row_prods A B i) /\
    forall M h dn cap L, length (row_entries A i) <= hcap h -> lrep cap L dn -> length dn + length l <= cap ->
      exists h' L', linearRow mul add thr A B M i h L = Ok (h', L', Some (length l)) /\ lrep cap L' (dn ++ l) /\ hcap h' = hcap h) []) as [rspec Hsp].
  { intros i Hi. destruct (linearRow_correct mul add thr A B i HA HB Hin Hi HsB) as (l & H1 & H2 & H3 & H4 & H5). exists l. unfold lin_row. auto. }
  exists rspec. split; [|intros i Hi; apply (Hsp i Hi)]. constructor.
  - intros i Hi. destruct (Hsp i Hi) as (_ & H & _). rewrite nprods_row_prods. exact H.
  - intros i c v Hi Hc. destruct (Hsp i Hi) as ((_ & H & _) & _). apply (touched_range A B i c HB), H.
    apply elem_of_list_fmap. exists (c, v). auto.
  - discriminate.
  - intros rb re Hr. apply heapEst_ok; assumption.
  - intros rb re Hr. exists (mkHeap [] (maxOver (fun i => length (row_entries A i)) rb re) 0),
      (fun h => hcap h = maxOver (fun i => length (row_entries A i)) rb re).
    split; [apply heapAlloc_ok; assumption|]. split; [reflexivity|]. intros i h cap L dn Hi Hh HL Hroom.
    destruct (Hsp i ltac:(lia)) as (_ & Hlen & Hrun). rewrite nprods_row_prods in Hroom.
    destruct (Hrun M h dn cap L) as (h' & L' & H1 & H2 & H3); [|exact HL|lia|].
    + rewrite Hh. apply (maxOver_ge (fun i => length (row_entries A i))), Hi.
    + exists h', L'. split; [exact H1|]. split; [exact H2|congruence].
Qed.

Lemma basic_contract (A B M : csr V) : wf A -> wf B -> cols A = rows B -> sorted_rows B -> (N.of_nat (sum_list (hflops A B)) < 2 ^ 31)%N ->
  exists rspec, ha_ok (basicAlg mul add) A B M rspec (nprods A B) (fun _ => false) /\ forall i, i < rows A -> lin_row A B i (rspec i).
Proof.
  intros HA HB Hin HsB Hb. destruct (linear_contract 0 A B M HA HB Hin HsB Hb) as (rspec & [H1 H2 H3 H4 H5] & H6).
  exists rspec. split; [|exact H6]. constructor; [exact H1|exact H2|exact H3|exact H4|].
  intros rb re Hr. destruct (H5 rb re Hr) as (a & inv & Ha & Hi & Hrun). exists a, inv. split; [exact Ha|]. split; [exact Hi|].
  intros i h cap L dn Hir Hh HL Hroom. cbn. rewrite basicRow_linear. apply Hrun; assumption.
Qed.

(** ** MaskedHeap *)
Lemma masked_contract insp (A B M : csr V) : compatible A B M -> sorted_rows B -> sorted_rows M -> insp_ok insp (nnz M) ->
  exists rspec, ha_ok (maskedHeapAlg mul add insp) A B M rspec (mEst A B M) (fun i => bool_decide (row_cols M i = [] /\ insp <> 0%N)) /\
    forall i, i < rows A -> heap_row mul add A B (rspec i) (spec_row mul add A B M i) i.
Proof.
  intros Hco HsB HsM Hins. pose proof Hco as [HA HB HM HAB HMA HMB].
  destruct (choose_rows (rows A) (fun i l => heap_row mul add A B l (spec_row mul add A B M i) i /\ length l <= length (row_prods A B i) /\
    forall h dn cap L, length (row_entries A i) <= hcap h -> lrep cap L dn -> length dn + length l <= cap ->
      exists h' L' c, maskedHeapRow mul add insp A B M i h L = Ok (h', L', c) /\ lrep cap L' (dn ++ l) /\ hcap h' = hcap h /\
        (c = if bool_decide (row_cols M i = [] /\ insp <> 0%N) then None else Some (length l))) []) as [rspec Hsp].
  { intros i Hi. destruct (maskedHeapRow_correct mul add insp A B M i Hco Hi HsB ltac:(apply HsM; lia) Hins) as (l & H1 & H2 & H3 & H4).
    exists l. split; [split; assumption|]. split; [assumption|]. intros h dn cap L P1 P2 P3. destruct (H4 h dn cap L P1 P2 P3) as (h' & L' & c & Q1 & Q2 & Q3 & _ & Q4).
    exists h', L', c. auto. }
  assert (Hlen : forall i, i < rows A -> length (rspec i) <= length (row_cols M i)).
  { intros i Hi. destruct (Hsp i Hi) as ([H _] & _). rewrite <- (fmap_length fst), H, fmap_length. apply plain_length_mask. }
  assert (Hest : forall i, i < rows A -> length (rspec i) <= mEst A B M i).
  { intros i Hi. unfold mEst. destruct (Hsp i Hi) as (_ & H & _). rewrite nprods_row_prods. pose proof (Hlen i Hi). lia. }
  exists rspec. split; [|intros i Hi; apply (Hsp i Hi)]. constructor.
  - exact Hest.
  - intros i c v Hi Hin. apply (elem_of_list_fmap_1 fst) in Hin. destruct (Hsp i Hi) as [[H _] _]. rewrite H in Hin.
    apply elem_of_list_fmap in Hin as ([c' v'] & Hc & Hin). cbn in Hc. subst c'. eapply plain_cols; eauto.
  - intros i Hi E. apply bool_decide_eq_true in E as [E _]. apply length_zero_iff_nil. pose proof (Hlen i Hi). rewrite E in *. simpl in *. lia.
  - intros rb re Hr. apply maskEst_ok; assumption.
  - intros rb re Hr. exists (mkHeap [] (maxOver (fun i => length (row_entries A i)) rb re) 0),
      (fun h => hcap h = maxOver (fun i => length (row_entries A i)) rb re).
    split; [apply heapAlloc_ok; assumption|]. split; [reflexivity|]. intros i h cap L dn Hi Hh HL Hroom.
    destruct (Hsp i ltac:(lia)) as (_ & _ & Hrun). pose proof (Hest i ltac:(lia)).
    destruct (Hrun h dn cap L) as (h' & L' & c & H1 & H2 & H3 & ->); [|exact HL|lia|].
    + rewrite Hh. apply (maxOver_ge (fun i => length (row_entries A i))), Hi.
    + exists h', L'. split; [exact H1|]. split; [exact H2|congruence].
Qed.

(** ** MCA *)
(** MCA_v1 and MCA_v2 take the first key of a row of B from A.colids: the same key must be found there. *)
Definition mca_keys (A B : csr V) : Prop :=
  forall i k a bb, i < rows A -> (k, a) ∈ row_entries A i -> rowptr B !! k = Some bb ->
    exists key, colids A !! bb = Some key /\ (row_cols B k = [] \/ colids B !! bb = Some key).
(** The products of a row fall into the first [nprods] columns of the mask row. *)
Definition mca_room (A B M : csr V) : Prop :=
  forall i p c, i < rows A -> row_cols M i !! p = Some c -> c ∈ touched_cols A B i -> p < length (touched_cols A B i).

Lemma mca_contract v (A B M : csr V) : compatible A B M -> sorted_rows B -> sorted_rows M ->
  (v <> MV3 -> mca_keys A B) -> (v <> MV2 -> forall i, i < rows A -> row_cols M i = [] -> touched_cols A B i = []) -> mca_room A B M ->
  ha_ok (mcaAlgG mul add v) A B M (spec_row mul add A B M) (mEst A B M) (fun _ => false).
Proof.
  intros Hco HsB HsM Hk He Hr. pose proof Hco as [HA HB HM HAB HMA HMB]. constructor.
  - intros i Hi. unfold mEst. pose proof (plain_length_mask mul add A B M i).
    pose proof (plain_length_touched mul add A B M i (SSorted_NoDup _ (HsM i ltac:(lia)))). lia.
  - intros i c w Hi Hin. eapply plain_cols; eassumption.
  - discriminate.
  - intros rb re Hre. apply maskEst_ok; assumption.
  - intros rb re Hre. eexists _, (fun fl => length fl = maxOver (fun i => length (row_entries M i)) rb re).
    split; [apply flagsAlloc_ok; [assumption|lia]|]. split; [apply replicate_length|].
    intros i fl cap L dn Hi Hfl HL Hroom. assert (Hi' : i < rows A) by lia.
    destruct (mcaRowG_correct mul add v A B M i (mEst A B M i) Hco Hi' HsB (HsM i ltac:(lia))) with (flags := fl) (dn := dn) (cap := cap) (L := L) as (fl' & L' & H1 & H2 & H3).
    + intros Hv k a bb. apply Hk; assumption.
    + intros Hv. apply He; assumption.
    + intros p c Hp Hc. unfold mEst. rewrite <- touched_length. apply lookup_lt_Some in Hp as Hlt. pose proof (Hr i p c Hi' Hp Hc). lia.
    + rewrite Hfl, row_cols_length. apply (maxOver_ge (fun i => length (row_entries M i))), Hi.
    + exact HL.
    + exact Hroom.
    + exists fl', L'. split; [exact H1|]. split; [exact H2|congruence].
Qed.
End Algs.
