(** The one-phase and two-phase drivers (masked-spgemm.h) over any row algorithm that meets [ra_ok]. *)
From Verif Require Import MemModel MemProofs BaseProofs ConcProofs ScanProofs ScanStatements WorkProofs Assemble DriverModel DriverBase.
From Verif Require Import Base Spec.

Section Contract.
Context {V : Type} (alg : rowalg V) (A B M : csr V) (rspec : nat -> list (nat * V)).

(** The driver's flop count of a row. *)
Definition flopsOf (row : nat) : nat := if ra_compl alg then nprods A B row else nprodsM A B M row.
(** The driver's bound for the size of a row of the result. *)
Definition boundOf (row : nat) : nat :=
  if ra_compl alg then flopsOf row else Nat.min (flopsOf row) (length (row_entries M row)).
(** The constructor arguments for the thread with rows [rb..re). *)
Definition paramsOf (rb re : nat) : params :=
  mkParams (cols B)
    (if ra_calcA alg then maxOver (fun i => length (row_entries A i)) rb re else 0)
    (if ra_calcM alg then maxOver (fun i => length (row_entries M i)) rb re else 0)
    (if ra_calcF alg then maxOver flopsOf rb re else 0).

(** Number the numericRow gets in the two drivers: the flop count of the row (1p), or the row's
    number of entries when not 0 (2p). *)
Definition numArg (row f : nat) : Prop := f = flopsOf row \/ (f = length (rspec row) /\ f <> 0).

Definition num_ok (rb re : nat) (Ninv : ra_N alg -> Prop) : Prop :=
  forall row f a dn cap, rb <= row < re -> flopsOf row <> 0 -> numArg row f -> Ninv a ->
    length dn + length (rspec row) <= cap ->
    exists a', ra_nrow alg A B M row f a (mkOut dn cap) = Ok (a', mkOut (dn ++ rspec row) cap) /\ Ninv a'.
Definition sym_ok (rb re : nat) (Sinv : ra_S alg -> Prop) : Prop :=
  forall row s, rb <= row < re -> flopsOf row <> 0 -> Sinv s ->
    exists s', ra_srow alg A B M row (flopsOf row) s = Ok (s', length (rspec row)) /\ Sinv s'.

(** What the drivers need of a row algorithm to produce the rows [rspec]. *)
Record ra_ok : Prop := {
  ok_zero : forall i, i < rows A -> flopsOf i = 0 -> rspec i = [];
  ok_bound : forall i, i < rows A -> length (rspec i) <= boundOf i;
  ok_cols : forall i c v, i < rows A -> (c, v) ∈ rspec i -> c < cols B;
  ok_run : forall rb re, rb <= re <= rows A ->
    exists sz al, ra_req alg (paramsOf rb re) = Ok (sz, al) /\ (0 < al /\ al + 8 < SZ)%N /\
    exists Ninv, num_ok rb re Ninv /\
      (forall b, MemProofs.fresh (sz, al) b -> exists a, ra_nset alg (paramsOf rb re) b = Ok a /\ Ninv a) /\
      (forall b, MemProofs.fresh (sz, al) b -> exists Sinv s0, ra_sset alg (paramsOf rb re) b = Ok s0 /\ Sinv s0 /\
         sym_ok rb re Sinv /\
         forall s, Sinv s -> exists a, ra_nset alg (paramsOf rb re) (ra_srel alg s) = Ok a /\ Ninv a) }.
End Contract.

Lemma allocBuf_fresh sc t sz al : (0 < al /\ al + 8 < SZ)%N -> MemProofs.fresh (sz, al) (allocBuf sc t (sz, al)).
Proof. intros [H1 H2]. unfold MemProofs.fresh, allocBuf. cbn [fst snd b_addr b_size b_dirty]. split; [|auto]. apply maShift_spec; assumption. Qed.

Lemma sumOver_le f g rb re : (forall i, rb <= i < re -> f i <= g i) -> sumOver f rb re <= sumOver g rb re.
Proof.
  unfold sumOver. intros H. assert (H' : forall i, i ∈ seq rb (re - rb) -> f i <= g i) by (intros i Hi; apply elem_of_seq in Hi; apply H; lia).
  clear H. induction (seq rb (re - rb)) as [|x l IH]; [simpl; lia|].
  rewrite !fmap_cons. simpl. pose proof (H' x ltac:(left)). specialize (IH ltac:(intros; apply H'; right; assumption)). lia.
Qed.
Lemma pre_sumOver {V} (rspec : nat -> list (nat * V)) a b : a <= b -> pre rspec b - pre rspec a = sumOver (fun i => length (rspec i)) a b.
Proof.
  induction 1 as [|b Hab IH]; [unfold sumOver; rewrite !Nat.sub_diag; reflexivity|].
  rewrite sumOver_S, <- IH, pre_S by lia. pose proof (pre_le rspec a b Hab). lia.
Qed.
Lemma sumOver_mono f a b c : a <= b <= c -> sumOver f a b <= sumOver f a c.
Proof. intros [H1 H2]. induction H2 as [|c H2 IH]; [lia|]. rewrite sumOver_S by lia. lia. Qed.

Lemma fmap_Some_seq {T} (f : nat -> T) (l : list nat) : (fun i => Some (f i)) <$> l = Some <$> (f <$> l).
Proof. rewrite <- list_fmap_compose. reflexivity. Qed.

Section Driver.
Context {V : Type} (alg : rowalg V) (A B M : csr V) (rspec : nat -> list (nat * V)).
Hypothesis HC : compatible A B M.
Hypothesis Hok : ra_ok alg A B M rspec.
Hypothesis Hrows : 1 <= rows A.
Context (nt : nat) (Hnt : 1 <= nt).
Notation n := (rows A).
Notation flopsOf := (flopsOf alg A B M).
Notation pre := (pre rspec).
Notation ev := (@event loc (val V)).

Definition flops : list nat := flopsOf <$> seq 0 n.
Definition total : nat := sum_list flops.

Lemma flops_get i : i < n -> get flops i = Ok (flopsOf i).
Proof. intros H. apply get_Some. unfold flops. rewrite list_lookup_fmap, lookup_seq_lt by exact H. reflexivity. Qed.

Lemma prepare_ok : exists cum, length cum = n /\ prepare_always (ra_compl alg) A B M nt flops cum total.
Proof.
  assert (L : length flops = n) by (unfold flops; rewrite fmap_length, seq_length; reflexivity).
  exists ((fun i => fold_left Nat.add (take i flops) 0) <$> seq 0 n). split; [rewrite fmap_length, seq_length; reflexivity|].
  split.
  - unfold total, flops, DriverProofs.flopsOf. destruct (ra_compl alg).
    + pose proof (calculateFlops_ok A B (replicate n None)) as H. rewrite drop_ge, app_nil_r in H by (rewrite replicate_length; lia).
      rewrite fmap_Some_seq in H. apply H; [apply HC|apply HC|apply HC|rewrite replicate_length; lia].
    + pose proof (calculateFlopsM_ok A B M (replicate n None)) as H. rewrite drop_ge, app_nil_r in H by (rewrite replicate_length; lia).
      rewrite fmap_Some_seq in H. apply H; [exact HC|rewrite replicate_length; lia].
  - pose proof (exclusive_scan_ok 0 Nat.add flops n nt (replicate n None)) as H.
    rewrite drop_ge, app_nil_r in H by (rewrite replicate_length; lia). rewrite fmap_Some_seq in H.
    apply H; try lia. rewrite replicate_length. lia.
Qed.

Section Cut.
Context (cum : list nat) (cut : nat -> nat).
Hypothesis Hcut0 : cut 0 = 0.
Hypothesis Hcutn : cut nt = n.
Hypothesis Hcutm : forall t, t < nt -> cut t <= cut (t + 1).
Hypothesis Hdist : forall t, t < nt -> distributeWork total cum n nt t = Ok (cut t, cut (t + 1)).
Notation tnv := (tnv rspec cut).
Notation tout := (tout rspec cut).

Lemma cut_range t : t < nt -> cut t <= cut (t + 1) <= n.
Proof. intros Ht. split; [apply Hcutm, Ht|]. apply (cut_n rspec n nt cut Hnt Hcut0 Hcutn Hcutm); lia. Qed.

Lemma scan_ok cC t : t < nt ->
  scanInputs (ra_compl alg) cC (ra_calcA alg) (ra_calcM alg) (ra_calcF alg) (cut t) (cut (t + 1)) flops A M =
  Ok (if cC then sumOver (boundOf alg A B M) (cut t) (cut (t + 1)) else 0,
      pA (paramsOf alg A B M (cut t) (cut (t + 1))), pM (paramsOf alg A B M (cut t) (cut (t + 1))),
      pF (paramsOf alg A B M (cut t) (cut (t + 1)))).
Proof.
  intros Ht. rewrite (scanInputs_ok _ _ _ _ _ _ _ _ A M flopsOf); [reflexivity|apply HC|apply HC|apply HC|apply cut_range, Ht|].
  intros i Hi. unfold flops. rewrite list_lookup_fmap, lookup_seq_lt by exact Hi. reflexivity.
Qed.

(** ** First phase of the one-phase driver *)
Definition ev_nv (t : nat) : list ev :=
  mjoin ((fun i => [EWr (aNv, i) (VN (length (rspec i)))]) <$> seq (cut t) (cut (t + 1) - cut t)).
Definition ev1 (t : nat) : list ev := ev_nv t ++ [EWr (aTn, t) (VN (tnv t))].

Lemma numeric1p_solo iA iB iM sc e t : deref e iA = Ok A -> deref e iB = Ok B -> deref e iM = Ok M -> t < nt ->
  exists m', solo (startMem n nt) (numeric1p alg iA iB iM nt sc flops cum total e t) (ev1 t) (mkT1 (cut t) (cut (t + 1)) (tout t)) m'.
Proof.
  intros HA HB HM Ht. pose proof (cut_range t Ht) as Hr.
  destruct (ok_run _ _ _ _ _ Hok (cut t) (cut (t + 1)) Hr) as (sz & al & Hreq & Hal & Ninv & Hnum & Hns & _).
  destruct (Hns _ (allocBuf_fresh sc t sz al Hal)) as (a0 & Hset & Ha0).
  set (cap := sumOver (boundOf alg A B M) (cut t) (cut (t + 1))).
  set (Inv := fun i (s : ra_N alg * out V) (m : gmap loc (val V)) =>
    Ninv (fst s) /\ snd s = mkOut (rowsOf rspec (cut t) i) cap /\ forall l, is_Some (startMem (V := V) n nt !! l) -> is_Some (m !! l)).
  assert (Hloop : exists s' m', solo (startMem n nt) (pfor_n (cut (t + 1) - cut t) (cut t) (row1p alg flops A B M) (a0, mkOut [] cap)) (ev_nv t) s' m' /\
    Inv (cut t + (cut (t + 1) - cut t)) s' m').
  { apply solo_pfor_n.
    - intros i [a o] m Hi (Ha & Ho & Hd). cbn [fst snd] in Ha, Ho. subst o. unfold row1p.
      assert (Hin : i < n) by lia.
      assert (Hdom : is_Some (m !! (aNv, i))) by (apply Hd, (startMem_nv rspec n nt cut Hnt Hcut0 Hcutn Hcutm i Hin)).
      assert (Hd' : forall l v, is_Some (startMem (V := V) n nt !! l) -> is_Some (<[(aNv, i) := v]> m !! l)).
      { intros l v Hl. destruct (decide (l = (aNv, i))) as [->|Hne]; [rewrite lookup_insert; eauto|rewrite lookup_insert_ne by congruence; auto]. }
      destruct (Nat.eqb_spec (flopsOf i) 0) as [Hz|Hnz].
      + exists (a, mkOut (rowsOf rspec (cut t) i) cap), (<[(aNv, i) := VN 0]> m).
        pose proof (ok_zero _ _ _ _ _ Hok i Hin Hz) as Hnil. split.
        * eapply solo_lift; [apply flops_get, Hin|]. rewrite Hz. cbn [Nat.eqb]. rewrite Hnil. simpl.
          apply solo_wr; [exact Hdom|constructor].
        * unfold Inv. cbn [fst snd]. rewrite rowsOf_S, Hnil, app_nil_r by lia. auto.
      + destruct (Hnum i (flopsOf i) a (rowsOf rspec (cut t) i) cap) as (a' & Hrow & Ha'); [lia|exact Hnz|left; reflexivity|exact Ha| |].
        { rewrite rowsOf_length by lia. unfold cap.
          assert (H1 : pre (S i) - pre (cut t) <= sumOver (boundOf alg A B M) (cut t) (S i)).
          { rewrite pre_sumOver by lia. apply sumOver_le. intros j Hj. apply (ok_bound _ _ _ _ _ Hok). lia. }
          pose proof (sumOver_mono (boundOf alg A B M) (cut t) (S i) (cut (t + 1)) ltac:(lia)) as H2.
          rewrite pre_S in H1. pose proof (pre_le rspec (cut t) i ltac:(lia)) as H3. lia. }
        exists (a', mkOut (rowsOf rspec (cut t) (S i)) cap), (<[(aNv, i) := VN (length (rspec i))]> m). split.
        * eapply solo_lift; [apply flops_get, Hin|]. apply Nat.eqb_neq in Hnz. rewrite Hnz.
          eapply solo_lift; [exact Hrow|]. cbn [fst snd o_done]. rewrite app_length.
          replace (length (rowsOf rspec (cut t) i) + length (rspec i) - length (rowsOf rspec (cut t) i)) with (length (rspec i)) by lia.
          rewrite <- rowsOf_S by lia. apply solo_wr; [exact Hdom|constructor].
        * unfold Inv. cbn [fst snd]. auto.
    - unfold Inv. cbn [fst snd]. rewrite rowsOf_nil by lia. auto. }
  destruct Hloop as ([a o] & m' & Hs & Ha & Ho & Hd). cbn [fst snd] in Ho. subst o.
  replace (cut t + (cut (t + 1) - cut t)) with (cut (t + 1)) in * by lia.
  exists (<[(aTn, t) := VN (tnv t)]> m'). unfold numeric1p.
  eapply solo_lift; [exact HA|]. eapply solo_lift; [exact HB|]. eapply solo_lift; [exact HM|].
  eapply solo_lift; [apply Hdist, Ht|]. cbn beta iota. eapply solo_lift; [apply scan_ok, Ht|]. cbn beta iota.
  eapply solo_lift; [exact Hreq|]. eapply solo_lift; [exact Hset|].
  unfold ev1. eapply solo_bind; [exact Hs|]. cbn beta iota. cbn [o_done].
  change (rowsOf rspec (cut t) (cut (t + 1))) with (tout t). rewrite (tout_length rspec nt cut Hcutm t Ht).
  apply solo_wr; [apply Hd, (startMem_tn rspec n nt cut Hnt Hcut0 Hcutn Hcutm t Ht)|]. constructor.
Qed.

Lemma ev1_own t l v : EWr l v ∈ ev1 t -> own1 cut t l /\ wvf rspec n cut l = Some v.
Proof.
  unfold ev1, ev_nv. rewrite elem_of_app, elem_of_events. intros [(i & Hi & Hin)|Hin]; apply elem_of_list_singleton in Hin; injection Hin as -> ->.
  - split; [|reflexivity]. left. split; [reflexivity|lia].
  - split; [|reflexivity]. right. auto.
Qed.
Lemma ev1_rd t l : ERd l ∉ ev1 t.
Proof. unfold ev1, ev_nv. rewrite elem_of_app, elem_of_events. intros [(i & Hi & Hin)|Hin]; apply elem_of_list_singleton in Hin; discriminate. Qed.
Lemma ev1_any t l : EAny l ∉ ev1 t.
Proof. unfold ev1, ev_nv. rewrite elem_of_app, elem_of_events. intros [(i & Hi & Hin)|Hin]; apply elem_of_list_singleton in Hin; discriminate. Qed.
Lemma ev1_nv i : i < n -> exists t, t < nt /\ EWr (aNv, i) (VN (length (rspec i))) ∈ ev1 t.
Proof.
  intros Hi. destruct (cut_cover cut nt i Hcut0 ltac:(lia)) as (t & Ht & Hc). exists t. split; [exact Ht|].
  unfold ev1, ev_nv. rewrite elem_of_app, elem_of_events. left. exists i. split; [lia|]. left.
Qed.
Lemma ev1_tn t : EWr (aTn, t) (VN (tnv t)) ∈ ev1 t.
Proof. unfold ev1. apply elem_of_app. right. left. Qed.

Definition state1 (t : nat) : t1 := mkT1 (cut t) (cut (t + 1)) (tout t).

Lemma phase1_1p iA iB iM sc e ss : deref e iA = Ok A -> deref e iB = Ok B -> deref e iM = Ok M -> length ss = nt ->
  (exists m1, always (startMem n nt, imap (fun t (_ : t1 (V := V)) => numeric1p alg iA iB iM nt sc flops cum total e t) ss) m1 (state1 <$> seq 0 nt) /\
    (forall i, i < n -> m1 !! (aNv, i) = Some (VN (length (rspec i)))) /\ (forall t, t < nt -> m1 !! (aTn, t) = Some (VN (tnv t)))) /\
  race_free (startMem n nt, imap (fun t (_ : t1 (V := V)) => numeric1p alg iA iB iM nt sc flops cum total e t) ss).
Proof.
  intros HA HB HM Hl. split.
  - destruct (owned_phase nt ss (fun e t (_ : t1 (V := V)) => numeric1p alg iA iB iM nt sc flops cum total e t) e (startMem n nt) ev1 state1 (own1 cut) (wvf rspec n cut) Hl)
      as (m1 & H1 & H2 & H3).
    + intros t s Ht _. apply numeric1p_solo; assumption.
    + intros t l v Ht Hin. apply ev1_own, Hin.
    + intros t u l _ _ Hin. exfalso. apply (ev1_rd t l Hin).
    + intros t u l. apply (own1_excl rspec n nt cut Hnt Hcut0 Hcutn Hcutm).
    + exists m1. split; [exact H1|]. split.
      * intros i Hi. destruct (ev1_nv i Hi) as (t & Ht & Hin). apply (H2 t _ _ Ht Hin).
      * intros t Ht. apply (H2 t _ _ Ht (ev1_tn t)).
  - apply (owned_race_free nt ss (fun e t (_ : t1 (V := V)) => numeric1p alg iA iB iM nt sc flops cum total e t) e (startMem n nt) ev1 state1 (own1 cut) Hl).
    + intros t s Ht _. apply numeric1p_solo; assumption.
    + intros t l v Ht Hin. apply (ev1_own t l v Hin).
    + intros t u l _ _ Hin. exfalso. apply (ev1_rd t l Hin).
    + intros t u l _ _ Hin. exfalso. apply (ev1_any t l Hin).
    + intros t u l. apply (own1_excl rspec n nt cut Hnt Hcut0 Hcutn Hcutm).
Qed.

(** ** Last phase of the one-phase driver *)
Definition ev3 (t : nat) : list ev :=
  ev_sro rspec n nt cut t ++ [ERd (aTn, t)] ++ (ev_pos cut t :: ev_store aCi (pre (cut t)) (cis (tout t)) ++
  (ev_pos cut t :: ev_store aVa (pre (cut t)) (vas (tout t)))).

Lemma output1p_solo iC nc e m t : e !! iC = Some (OFresh n nc (pre n)) -> mem3 rspec n nt cut m -> t < nt ->
  exists m', solo m (output1p iC nt e t (state1 t)) (ev3 t) (state1 t) m'.
Proof.
  intros HE Hm Ht. destruct (setRowOffsets_solo rspec n nt cut Hnt Hcut0 Hcutn Hcutm m t Ht Hm) as (m1 & Hs1 & Hm1 & Hk1).
  assert (L : length (tout t) = tnv t) by (apply (tout_length rspec nt cut Hcutm); exact Ht).
  assert (LC : length (cis (tout t)) = tnv t) by (unfold cis; rewrite fmap_length; exact L).
  assert (LV : length (vas (tout t)) = tnv t) by (unfold vas; rewrite fmap_length; exact L).
  destruct (copyTo_solo rspec n nt cut Hnt Hcut0 Hcutn Hcutm aCi m1 t (cis (tout t)) (VN (pre (cut t))) Ht Hm1 ltac:(auto) LC ltac:(auto)) as (m2 & Hs2).
  assert (Hown2 : forall a i v, EWr (a, i) v ∈ ev_store aCi (pre (cut t)) (cis (tout t)) -> a = aCi) by (intros a i v Hin; apply ev_store_elem in Hin; tauto).
  assert (Hm2 : mem3 rspec n nt cut m2).
  { eapply mem3_solo; [exact Hs2|exact Hm1|]. intros a i v Hin. apply Hown2 in Hin. subst. left. split; discriminate. }
  assert (Hk2 : cut t < cut (t + 1) -> m2 !! (aRp, cut t) = Some (VN (pre (cut t)))).
  { intros Hlt. rewrite (solo_keep _ _ _ _ _ _ Hs2); [apply Hk1, Hlt|]. intros v Hin. apply Hown2 in Hin. discriminate. }
  destruct (copyTo_solo rspec n nt cut Hnt Hcut0 Hcutn Hcutm aVa m2 t (vas (tout t)) (VN (pre (cut t))) Ht Hm2 ltac:(auto) LV ltac:(auto)) as (m3 & Hs3).
  exists m3. unfold output1p. eapply solo_lift; [unfold fresh_dims; rewrite HE; reflexivity|]. cbn beta iota. unfold state1 at 1 2. cbn [t1_rb t1_re].
  unfold ev3. eapply solo_bind; [exact Hs1|].
  eapply solo_bind; [apply solo_rdN, (m3_tn _ _ _ _ _ Hm1), Ht|].
  unfold copyValuesToC. cbn [state1 t1_rb t1_out]. rewrite L, Nat.ltb_irrefl, take_ge by lia.
  change ((fun e0 => VN e0.1) <$> tout t) with (cis (tout t)). change ((fun e0 => VV e0.2) <$> tout t) with (vas (tout t)).
  rewrite <- (app_nil_r (ev_pos cut t :: _)). eapply solo_bind; [|constructor].
  assert (Hcp : forall a (l : list (val V)) v, length l = tnv t -> (cut t < cut (t + 1) -> v = VN (pre (cut t))) -> copyTo a v l = copyTo a (VN (pre (cut t))) l).
  { intros a l v Hl Hv. destruct (decide (cut t < cut (t + 1))) as [Hlt|Hge]; [rewrite (Hv Hlt); reflexivity|].
    destruct l; [reflexivity|]. exfalso. rewrite (tout_nil rspec n nt cut Hnt Hcut0 Hcutn Hcutm t Ht Hge) in L. simpl in *. lia. }
  apply (solo_pos rspec n nt cut Hnt Hcut0 Hcutn Hcutm m1); [exact Ht|exact Hm1|exact Hk1|]. intros v Hv. rewrite (Hcp aCi (cis (tout t)) v LC Hv).
  eapply solo_bind; [exact Hs2|].
  apply (solo_pos rspec n nt cut Hnt Hcut0 Hcutn Hcutm m2); [exact Ht|exact Hm2|exact Hk2|]. intros w Hw. rewrite (Hcp aVa (vas (tout t)) w LV Hw).
  exact Hs3.
Qed.

Lemma ev3_own t l v : t < nt -> EWr l v ∈ ev3 t -> own3 rspec n nt cut t l /\ wvf rspec n cut l = Some v.
Proof.
  intros Ht. unfold ev3. rewrite !elem_of_app, !elem_of_cons, !elem_of_app, !elem_of_cons.
  assert (L : length (tout t) = tnv t) by (apply (tout_length rspec nt cut Hcutm); exact Ht).
  assert (Hp : EWr l v <> ev_pos cut t) by (unfold ev_pos; destruct (_ <? _); discriminate).
  intros [Hin|[[Hin|Hin]|[Hin|[Hin|[Hin|Hin]]]]]; try discriminate; try congruence; try (inversion Hin; fail).
  - apply (ev_sro_wr rspec n nt cut Hnt Hcut0 Hcutn Hcutm t l v Ht Hin).
  - eapply (ev_store_own rspec n nt cut Hnt Hcut0 Hcutn Hcutm aCi t); [auto|exact Ht| | |exact Hin].
    + unfold cis. rewrite fmap_length. exact L.
    + intros k w Hk. apply (wvf_ci rspec n nt cut Hnt Hcut0 Hcutn Hcutm t k w Ht Hk).
  - eapply (ev_store_own rspec n nt cut Hnt Hcut0 Hcutn Hcutm aVa t); [auto|exact Ht| | |exact Hin].
    + unfold vas. rewrite fmap_length. exact L.
    + intros k w Hk. apply (wvf_va rspec n nt cut Hnt Hcut0 Hcutn Hcutm t k w Ht Hk).
Qed.
Lemma ev3_rd t u l : t < nt -> u < nt -> ERd l ∈ ev3 t -> own3 rspec n nt cut u l -> u = t.
Proof.
  intros Ht Hu. unfold ev3. rewrite !elem_of_app, !elem_of_cons, !elem_of_app, !elem_of_cons.
  intros [Hin|[[Hin|Hin]|[Hin|[Hin|[Hin|Hin]]]]] Ho; try (inversion Hin; fail); try (exfalso; eapply ev_store_rd, Hin).
  - apply (ev_sro_rd rspec n nt cut Hnt Hcut0 Hcutn Hcutm t u l Ht Hu Hin Ho).
  - injection Hin as ->. exfalso. destruct Ho as [[H _]|[[H _]|[[H|H] _]]]; discriminate.
  - apply (ev_pos_rd rspec n nt cut Hnt Hcut0 Hcutn Hcutm t u l Ht Hu Hin Ho).
  - apply (ev_pos_rd rspec n nt cut Hnt Hcut0 Hcutn Hcutm t u l Ht Hu Hin Ho).
Qed.

Lemma own3_any t u l : (forall t, t + 1 < nt -> cut t < cut (t + 1)) -> t < nt -> u < nt -> EAny l = ev_pos (V := V) cut t -> own3 rspec n nt cut u l -> u = t.
Proof. intros Hne Ht Hu. unfold ev_pos. destruct (Nat.ltb_spec (cut t) (cut (t + 1))) as [|Hge]; [discriminate|]. intros E. injection E as ->.
  destruct (decide (t + 1 < nt)) as [Hlt|Hl]; [specialize (Hne t Hlt); lia|]. assert (t = nt - 1) by lia.
  assert (Hn : cut t = n).
  { pose proof (Hcutm t Ht). replace (t + 1) with nt in * by lia. lia. }
  intros [[H' _]|[[_ [Hr|[_ Hr]]]|[[H'|H'] _]]]; try discriminate; [|congruence].
  assert (cut (u + 1) <= n); [|lia]. rewrite <- Hcutn. apply (cut_le cut nt); [exact Hcutm|lia].
Qed.

Lemma ev3_any t u l : (forall t, t + 1 < nt -> cut t < cut (t + 1)) -> t < nt -> u < nt -> EAny l ∈ ev3 t -> own3 rspec n nt cut u l -> u = t.
Proof.
  intros Hne Ht Hu. unfold ev3. rewrite !elem_of_app, !elem_of_cons, !elem_of_app, !elem_of_cons.
  intros [Hin|[[Hin|Hin]|[Hin|[Hin|[Hin|Hin]]]]] Ho; try (inversion Hin; fail); try (exfalso; eapply ev_store_any, Hin).
  - exfalso. apply (ev_sro_any rspec n nt cut t l Hin).
  - apply (own3_any t u l); assumption.
  - apply (own3_any t u l); assumption.
Qed.

(** The output arrays when all threads have finished. *)
Lemma out_cells (m' : gmap loc (val V)) (evs : nat -> list ev) :
  (forall t l v, t < nt -> EWr l v ∈ evs t -> m' !! l = Some v) ->
  (forall t x, t < nt -> x ∈ ev_sro rspec n nt cut t -> x ∈ evs t) ->
  (forall t x, t < nt -> x ∈ ev_store aCi (pre (cut t)) (cis (tout t)) -> x ∈ evs t) ->
  (forall t x, t < nt -> x ∈ ev_store aVa (pre (cut t)) (vas (tout t)) -> x ∈ evs t) ->
  forall (e : gmap nat (obj V)) iC nc, e !! iC = Some (OFresh n nc (pre n)) -> outMatrix e m' iC = Some (assemble rspec n nc).
Proof.
  intros Hm H1 H2 H3 e iC nc He. apply (outMatrix_ok rspec n nt cut Hnt Hcut0 Hcutn Hcutm); [exact He| |].
  - intros j Hj. destruct (rp_written rspec n nt cut Hnt Hcut0 Hcutn Hcutm j Hj) as (t & Ht & Hin). apply (Hm t); auto.
  - intros p x Hp. destruct (out_written rspec n nt cut Hnt Hcut0 Hcutn Hcutm p x Hp) as (t & Ht & Hc & Hv).
    split; apply (Hm t); auto.
Qed.

Lemma phase3_1p iC nc e m : e !! iC = Some (OFresh n nc (pre n)) -> mem3 rspec n nt cut m ->
  (exists m', always (m, imap (output1p iC nt e) (state1 <$> seq 0 nt)) m' (state1 <$> seq 0 nt) /\
     outMatrix e m' iC = Some (assemble rspec n nc)) /\
  ((forall t, t + 1 < nt -> cut t < cut (t + 1)) -> race_free (m, imap (output1p iC nt e) (state1 <$> seq 0 nt))).
Proof.
  intros He Hm. assert (Hl : length (state1 <$> seq 0 nt) = nt) by (rewrite fmap_length, seq_length; reflexivity).
  assert (Hs : forall t s, t < nt -> (state1 <$> seq 0 nt) !! t = Some s -> exists mf, solo m (output1p iC nt e t s) (ev3 t) (state1 t) mf).
  { intros t s Ht Hls. rewrite list_lookup_fmap, lookup_seq_lt in Hls by exact Ht. injection Hls as <-. eapply output1p_solo; eauto. }
  split.
  - destruct (owned_phase nt (state1 <$> seq 0 nt) (output1p iC nt) e m ev3 state1 (own3 rspec n nt cut) (wvf rspec n cut) Hl Hs)
      as (m' & H1 & H2 & H3).
    + intros t l v Ht Hin. apply ev3_own; assumption.
    + intros t u l. apply ev3_rd.
    + intros t u l. apply (own3_excl rspec n nt cut Hnt Hcut0 Hcutn Hcutm).
    + exists m'. split; [exact H1|]. apply (out_cells m' ev3 H2); [| | |exact He]; intros t x Ht Hx; unfold ev3;
        rewrite !elem_of_app, !elem_of_cons, !elem_of_app, !elem_of_cons; tauto.
  - intros Hne. apply (owned_race_free nt (state1 <$> seq 0 nt) (output1p iC nt) e m ev3 state1 (own3 rspec n nt cut) Hl Hs).
    + intros t l v Ht Hin. apply (ev3_own t l v Ht Hin).
    + intros t u l. apply ev3_rd.
    + intros t u l. apply ev3_any, Hne.
    + intros t u l. apply (own3_excl rspec n nt cut Hnt Hcut0 Hcutn Hcutm).
Qed.
(** ** First phase of the two-phase driver *)
Definition evs2 (t : nat) : list ev :=
  mjoin ((fun i => [EWr (aNv, i) (VN (length (rspec i))); ERd (aNv, i)]) <$> seq (cut t) (cut (t + 1) - cut t)) ++ [EWr (aTn, t) (VN (tnv t))].

(** What the symbolic phase leaves in a thread's private variables. *)
Definition state2_ok (t : nat) (s : t2) : Prop :=
  t2_rb s = cut t /\ t2_re s = cut (t + 1) /\ exists Ninv a, num_ok alg A B M rspec (cut t) (cut (t + 1)) Ninv /\
    ra_nset alg (t2_p s) (t2_buf s) = Ok a /\ Ninv a.

Lemma symbolic2p_solo iA iB iM sc e t : deref e iA = Ok A -> deref e iB = Ok B -> deref e iM = Ok M -> t < nt ->
  exists s m', solo (startMem n nt) (symbolic2p alg iA iB iM nt sc flops cum total e t) (evs2 t) s m' /\ state2_ok t s.
Proof.
  intros HA HB HM Ht. pose proof (cut_range t Ht) as Hr.
  destruct (ok_run _ _ _ _ _ Hok (cut t) (cut (t + 1)) Hr) as (sz & al & Hreq & Hal & Ninv & Hnum & _ & Hss).
  destruct (Hss _ (allocBuf_fresh sc t sz al Hal)) as (Sinv & a0 & Hset & Ha0 & Hsym & Hrel).
  set (Inv := fun i (s : ra_S alg * nat) (m : gmap loc (val V)) =>
    Sinv (fst s) /\ snd s = pre i - pre (cut t) /\ forall l, is_Some (startMem (V := V) n nt !! l) -> is_Some (m !! l)).
  assert (Hloop : exists s' m', solo (startMem n nt) (pfor_n (cut (t + 1) - cut t) (cut t) (srow2p alg flops A B M) (a0, 0))
      (mjoin ((fun i => [EWr (aNv, i) (VN (length (rspec i))); ERd (aNv, i)]) <$> seq (cut t) (cut (t + 1) - cut t))) s' m' /\
    Inv (cut t + (cut (t + 1) - cut t)) s' m').
  { apply solo_pfor_n.
    - intros i [a nv] m Hi (Ha & Ho & Hd). cbn [fst snd] in Ha, Ho. subst nv. unfold srow2p.
      assert (Hin : i < n) by lia.
      assert (Hdom : is_Some (m !! (aNv, i))) by (apply Hd, (startMem_nv rspec n nt cut Hnt Hcut0 Hcutn Hcutm i Hin)).
      assert (Hd' : forall l v, is_Some (startMem (V := V) n nt !! l) -> is_Some (<[(aNv, i) := v]> m !! l)).
      { intros l v Hl. destruct (decide (l = (aNv, i))) as [->|Hne]; [rewrite lookup_insert; eauto|rewrite lookup_insert_ne by congruence; auto]. }
      assert (Hrow : exists a', solo m (if flopsOf i =? 0 then Wr (aNv, i) (VN 0) (Ret a)
         else pbind (lift (ra_srow alg A B M i (flopsOf i) a)) (fun r => Wr (aNv, i) (VN (snd r)) (Ret (fst r))))
         [EWr (aNv, i) (VN (length (rspec i)))] a' (<[(aNv, i) := VN (length (rspec i))]> m) /\ Sinv a').
      { destruct (Nat.eqb_spec (flopsOf i) 0) as [Hz|Hnz].
        - rewrite (ok_zero _ _ _ _ _ Hok i Hin Hz). exists a. split; [|exact Ha]. apply solo_wr; [exact Hdom|constructor].
        - destruct (Hsym i a) as (a' & Hrow & Ha'); [lia|exact Hnz|exact Ha|]. exists a'. split; [|exact Ha'].
          eapply solo_lift; [exact Hrow|]. apply solo_wr; [exact Hdom|constructor]. }
      destruct Hrow as (a' & Hrow & Ha').
      exists (a', pre (S i) - pre (cut t)), (<[(aNv, i) := VN (length (rspec i))]> m). split.
      + eapply solo_lift; [apply flops_get, Hin|].
        change [EWr (aNv, i) (VN (length (rspec i))); ERd (aNv, i)] with ([EWr (aNv, i) (VN (length (rspec i)))] ++ [ERd (aNv, i)] ++ @nil ev).
        eapply solo_bind; [exact Hrow|]. eapply solo_bind; [apply solo_rdN, lookup_insert|].
        pose proof (pre_le rspec (cut t) i ltac:(lia)) as Hple. rewrite pre_S.
        replace (pre i - pre (cut t) + length (rspec i)) with (pre i + length (rspec i) - pre (cut t)) by lia. constructor.
      + unfold Inv. cbn [fst snd]. auto.
    - unfold Inv. cbn [fst snd]. split; [exact Ha0|]. split; [lia|auto]. }
  destruct Hloop as ([a nv] & m' & Hs & Ha & Ho & Hd). cbn [fst snd] in Ho, Ha. subst nv.
  replace (cut t + (cut (t + 1) - cut t)) with (cut (t + 1)) in * by lia.
  exists (mkT2 (cut t) (cut (t + 1)) (paramsOf alg A B M (cut t) (cut (t + 1))) (ra_srel alg a)), (<[(aTn, t) := VN (tnv t)]> m'). split.
  - unfold symbolic2p.
    eapply solo_lift; [exact HA|]. eapply solo_lift; [exact HB|]. eapply solo_lift; [exact HM|].
    eapply solo_lift; [apply Hdist, Ht|]. cbn beta iota. eapply solo_lift; [apply scan_ok, Ht|]. cbn beta iota.
    eapply solo_lift; [exact Hreq|]. eapply solo_lift; [exact Hset|].
    unfold evs2. eapply solo_bind; [exact Hs|]. cbn beta iota.
    apply solo_wr; [apply Hd, (startMem_tn rspec n nt cut Hnt Hcut0 Hcutn Hcutm t Ht)|]. constructor.
  - unfold state2_ok. cbn [t2_rb t2_re t2_p t2_buf]. do 2 (split; [reflexivity|]).
    destruct (Hrel a Ha) as (a1 & Hn1 & Ha1). exists Ninv, a1. auto.
Qed.

Lemma evs2_own t l v : EWr l v ∈ evs2 t -> own1 cut t l /\ wvf rspec n cut l = Some v.
Proof.
  unfold evs2. rewrite elem_of_app, elem_of_events. intros [(i & Hi & Hin)|Hin].
  - apply elem_of_cons in Hin as [Hin|Hin]; [|apply elem_of_list_singleton in Hin; discriminate]. injection Hin as -> ->.
    split; [|reflexivity]. left. split; [reflexivity|lia].
  - apply elem_of_list_singleton in Hin; injection Hin as -> ->. split; [|reflexivity]. right. auto.
Qed.
Lemma evs2_rd t u l : t < nt -> u < nt -> ERd l ∈ evs2 t -> own1 cut u l -> u = t.
Proof.
  intros Ht Hu. unfold evs2. rewrite elem_of_app, elem_of_events. intros [(i & Hi & Hin)|Hin]; [|apply elem_of_list_singleton in Hin; discriminate].
  apply elem_of_cons in Hin as [Hin|Hin]; [discriminate|]. apply elem_of_list_singleton in Hin. injection Hin as ->.
  intros [[_ H]|[H _]]; [|discriminate]. eapply (cut_disj rspec n nt cut Hnt Hcut0 Hcutn Hcutm); eauto. lia.
Qed.
Lemma evs2_any t l : EAny l ∉ evs2 t.
Proof.
  unfold evs2. rewrite elem_of_app, elem_of_events. intros [(i & Hi & Hin)|Hin]; [|apply elem_of_list_singleton in Hin; discriminate].
  apply elem_of_cons in Hin as [Hin|Hin]; [discriminate|]. apply elem_of_list_singleton in Hin. discriminate.
Qed.

Lemma phase1_2p iA iB iM sc e ss : deref e iA = Ok A -> deref e iB = Ok B -> deref e iM = Ok M -> length ss = nt ->
  (exists m1 rs, always (startMem n nt, imap (fun t (_ : t2) => symbolic2p alg iA iB iM nt sc flops cum total e t) ss) m1 (rs <$> seq 0 nt) /\
    (forall t, t < nt -> state2_ok t (rs t)) /\
    (forall i, i < n -> m1 !! (aNv, i) = Some (VN (length (rspec i)))) /\ (forall t, t < nt -> m1 !! (aTn, t) = Some (VN (tnv t)))) /\
  race_free (startMem n nt, imap (fun t (_ : t2) => symbolic2p alg iA iB iM nt sc flops cum total e t) ss).
Proof.
  intros HA HB HM Hl.
  assert (Hch : exists rs : nat -> t2, forall t, t < nt ->
    (exists m', solo (startMem n nt) (symbolic2p alg iA iB iM nt sc flops cum total e t) (evs2 t) (rs t) m') /\ state2_ok t (rs t)).
  { assert (Hk : forall k, k <= nt -> exists rs : nat -> t2, forall t, t < k ->
      (exists m', solo (startMem n nt) (symbolic2p alg iA iB iM nt sc flops cum total e t) (evs2 t) (rs t) m') /\ state2_ok t (rs t)).
    { induction k as [|k IH]; intros Hk.
      - exists (fun _ => mkT2 0 0 (mkParams 0 0 0 0) (mkBuf 0 0 0 (fun _ => false))). intros t Ht. lia.
      - destruct (IH ltac:(lia)) as [rs Hrs]. destruct (symbolic2p_solo iA iB iM sc e k HA HB HM ltac:(lia)) as (s & m' & Hs & Hst).
        exists (fun t => if t =? k then s else rs t). intros t Ht. destruct (Nat.eqb_spec t k) as [->|Hne]; [eauto|]. apply Hrs. lia. }
    apply (Hk nt). lia. }
  destruct Hch as [rs Hrs]. split.
  - destruct (owned_phase nt ss (fun e t (_ : t2) => symbolic2p alg iA iB iM nt sc flops cum total e t) e (startMem n nt) evs2 rs (own1 cut) (wvf rspec n cut) Hl)
      as (m1 & H1 & H2 & H3).
    + intros t s Ht _. apply Hrs, Ht.
    + intros t l v Ht Hin. apply evs2_own, Hin.
    + intros t u l. apply evs2_rd.
    + intros t u l. apply (own1_excl rspec n nt cut Hnt Hcut0 Hcutn Hcutm).
    + exists m1, rs. split; [exact H1|]. split; [intros t Ht; apply Hrs, Ht|]. split.
      * intros i Hi. destruct (cut_cover cut nt i Hcut0 ltac:(lia)) as (t & Ht & Hc). apply (H2 t _ _ Ht).
        unfold evs2. rewrite elem_of_app, elem_of_events. left. exists i. split; [lia|]. left.
      * intros t Ht. apply (H2 t _ _ Ht). unfold evs2. apply elem_of_app. right. left.
  - apply (owned_race_free nt ss (fun e t (_ : t2) => symbolic2p alg iA iB iM nt sc flops cum total e t) e (startMem n nt) evs2 rs (own1 cut) Hl).
    + intros t s Ht _. apply Hrs, Ht.
    + intros t l v Ht Hin. apply (evs2_own t l v Hin).
    + intros t u l. apply evs2_rd.
    + intros t u l _ _ Hin. exfalso. apply (evs2_any t l Hin).
    + intros t u l. apply (own1_excl rspec n nt cut Hnt Hcut0 Hcutn Hcutm).
Qed.

(** ** Last phase of the two-phase driver *)
Definition evrow (i : nat) : list ev :=
  ERd (aNv, i) :: ev_store aCi (pre i) (cis (rspec i)) ++ ev_store aVa (pre i) (vas (rspec i)).
Definition evn2 (t : nat) : list ev :=
  ev_sro rspec n nt cut t ++ (ev_pos cut t :: ev_pos cut t :: mjoin (evrow <$> seq (cut t) (cut (t + 1) - cut t))).

Lemma numeric2p_solo iA iB iM iR nc e m t s : e !! iR = Some (OFresh n nc (pre n)) ->
  deref e iA = Ok A -> deref e iB = Ok B -> deref e iM = Ok M -> mem3 rspec n nt cut m -> t < nt -> state2_ok t s ->
  exists m', solo m (numeric2p alg iA iB iM iR nt e t s) (evn2 t) s m'.
Proof.
  intros HE HA HB HM Hm Ht (Hrb & Hre & Ninv & a0 & Hnum & Hset & Ha0). pose proof (cut_range t Ht) as Hr.
  destruct (setRowOffsets_solo rspec n nt cut Hnt Hcut0 Hcutn Hcutm m t Ht Hm) as (m1 & Hs1 & Hm1 & Hk1).
  set (cap := pre n - pre (cut t)). set (vp := VN (pre (cut t)) : val V).
  set (Inv := fun i (s : ra_N alg * list (nat * V)) (m : gmap loc (val V)) =>
    Ninv (fst s) /\ snd s = rowsOf rspec (cut t) i /\ mem3 rspec n nt cut m).
  assert (Hloop : exists s' m', solo m1 (pfor_n (cut (t + 1) - cut t) (cut t) (nrow2p alg A B M (pre n) vp vp) (a0, []))
      (mjoin (evrow <$> seq (cut t) (cut (t + 1) - cut t))) s' m' /\ Inv (cut t + (cut (t + 1) - cut t)) s' m').
  { apply solo_pfor_n.
    - intros i [a dn] m0 Hi (Ha & Ho & Hm0). cbn [fst snd] in Ha, Ho. subst dn.
      assert (Hin : i < n) by lia.
      pose proof (pre_le rspec (cut t) i ltac:(lia)) as Hp1.
      pose proof (pre_le rspec (S i) n ltac:(lia)) as Hp2. rewrite pre_S in Hp2.
      assert (Lr : length (rowsOf rspec (cut t) i) = pre i - pre (cut t)) by (apply rowsOf_length; lia).
      (* the stores of the row *)
      assert (Hst : exists mr, solo m0 (pbind (storeAt aCi (pre i) (cis (rspec i))) (fun _ => storeAt aVa (pre i) (vas (rspec i))))
          (ev_store aCi (pre i) (cis (rspec i)) ++ ev_store aVa (pre i) (vas (rspec i))) tt mr).
      { destruct (storeAt_solo aCi (cis (rspec i)) (pre i) m0) as [mc Hc].
        { intros k Hk. unfold cis in Hk. rewrite fmap_length in Hk. apply (m3_ci _ _ _ _ _ Hm0). lia. }
        destruct (storeAt_solo aVa (vas (rspec i)) (pre i) mc) as [mv Hv].
        { intros k Hk. unfold vas in Hk. rewrite fmap_length in Hk. apply (solo_dom _ _ _ _ _ _ Hc), (m3_va _ _ _ _ _ Hm0). lia. }
        exists mv. eapply solo_bind; eauto. }
      destruct Hst as (mr & Hst).
      assert (Hmr : mem3 rspec n nt cut mr).
      { eapply mem3_solo; [exact Hst|exact Hm0|]. intros x j v Hin'. left. apply elem_of_app in Hin' as [Hin'|Hin'];
          apply ev_store_elem in Hin' as [-> _]; split; discriminate. }
      assert (Hstep : exists a', solo m0 (nrow2p alg A B M (pre n) vp vp i (a, rowsOf rspec (cut t) i)) (evrow i) (a', rowsOf rspec (cut t) (S i)) mr /\ Ninv a').
      { unfold nrow2p, evrow.
        destruct (Nat.eqb_spec (length (rspec i)) 0) as [Hz|Hnz].
        - exists a. split; [|exact Ha]. assert (Hnil : rspec i = []) by (destruct (rspec i); [reflexivity|discriminate]).
          rewrite Hnil in *. simpl in Hst. inversion Hst; subst.
          change (ERd (aNv, i) :: ev_store aCi (pre i) (cis []) ++ ev_store aVa (pre i) (vas [])) with ([ERd (aNv, i)] ++ @nil ev).
          eapply solo_bind; [apply solo_rdN, (m3_nv _ _ _ _ _ Hm0), Hin|]. rewrite Hnil. cbn [length Nat.eqb].
          rewrite rowsOf_S, Hnil, app_nil_r by lia. constructor.
        - assert (Hfl : flopsOf i <> 0) by (intros Hf; apply Hnz; rewrite (ok_zero _ _ _ _ _ Hok i Hin Hf); reflexivity).
          destruct (Hnum i (length (rspec i)) a (rowsOf rspec (cut t) i) cap) as (a' & Hrow & Ha'); [lia|exact Hfl|right; auto|exact Ha| |].
          { rewrite Lr. unfold cap. lia. }
          exists a'. split; [|exact Ha'].
          change (ERd (aNv, i) :: ev_store aCi (pre i) (cis (rspec i)) ++ ev_store aVa (pre i) (vas (rspec i)))
            with ([ERd (aNv, i)] ++ (ev_store aCi (pre i) (cis (rspec i)) ++ ev_store aVa (pre i) (vas (rspec i)))).
          eapply solo_bind; [apply solo_rdN, (m3_nv _ _ _ _ _ Hm0), Hin|]. pose proof Hnz as Hnz'. apply Nat.eqb_neq in Hnz'. rewrite Hnz'.
          unfold vp at 1. eapply solo_lift; [exact Hrow|]. cbn [fst snd o_done].
          rewrite drop_app_alt by reflexivity. rewrite <- (rowsOf_S rspec (cut t) i) by lia.
          rewrite <- (app_nil_r (ev_store aCi _ _ ++ _)). eapply solo_bind; [|constructor].
          unfold storeRow. destruct (rspec i) as [|x l] eqn:El; [simpl in Hnz; lia|].
          unfold vp. rewrite Lr. replace (pre (cut t) + (pre i - pre (cut t))) with (pre i) by lia. exact Hst. }
      destruct Hstep as (a' & Hstep & Ha'). exists (a', rowsOf rspec (cut t) (S i)), mr. split; [exact Hstep|].
      unfold Inv. cbn [fst snd]. auto.
    - unfold Inv. cbn [fst snd]. rewrite rowsOf_nil by lia. auto. }
  destruct Hloop as (s' & m' & Hs & _).
  exists m'. unfold numeric2p. rewrite Hrb, Hre. eapply solo_lift; [unfold fresh_dims; rewrite HE; reflexivity|]. cbn beta iota.
  unfold evn2. eapply solo_bind; [exact Hs1|].
  eapply solo_lift; [exact HA|]. eapply solo_lift; [exact HB|]. eapply solo_lift; [exact HM|]. eapply solo_lift; [exact Hset|].
  apply (solo_pos rspec n nt cut Hnt Hcut0 Hcutn Hcutm m1); [exact Ht|exact Hm1|exact Hk1|]. intros v Hv.
  apply (solo_pos rspec n nt cut Hnt Hcut0 Hcutn Hcutm m1); [exact Ht|exact Hm1|exact Hk1|]. intros w Hw.
  rewrite <- (app_nil_r (mjoin _)). eapply solo_bind; [|constructor].
  unfold pfor. destruct (decide (cut t < cut (t + 1))) as [Hlt|Hge].
  - rewrite (Hv Hlt), (Hw Hlt). exact Hs.
  - replace (cut (t + 1) - cut t) with 0 in * by lia. simpl in *. inversion Hs; subst. constructor.
Qed.

Lemma evrow_own t i l v : t < nt -> cut t <= i < cut (t + 1) -> EWr l v ∈ evrow i -> own3 rspec n nt cut t l /\ wvf rspec n cut l = Some v.
Proof.
  intros Ht Hi. destruct l as [a p]. unfold evrow. rewrite elem_of_cons, elem_of_app. pose proof (cut_range t Ht) as Hr.
  pose proof (pre_le rspec (cut t) i ltac:(lia)) as Hp1. pose proof (pre_le rspec (S i) (cut (t + 1)) ltac:(lia)) as Hp2. rewrite pre_S in Hp2.
  assert (Hl : forall k x, rspec i !! k = Some x -> rowsOf rspec 0 n !! (pre i + k) = Some x).
  { intros k x Hk. pose proof (lookup_lt_Some _ _ _ Hk) as Hlt.
    rewrite (rowsOf_lookup rspec i (S i) n) by (rewrite ?pre_S; lia). replace (pre i + k - pre i) with k by lia.
    rewrite rowsOf_S, rowsOf_nil by lia. exact Hk. }
  intros [Hin|[Hin|Hin]]; [discriminate| |]; apply ev_store_elem in Hin as (-> & Hle & Hlk); unfold cis, vas in Hlk;
    rewrite list_lookup_fmap in Hlk; destruct (rspec i !! (p - pre i)) as [x|] eqn:Ex; try discriminate; injection Hlk as <-;
    pose proof (lookup_lt_Some _ _ _ Ex) as Hlt; apply Hl in Ex; replace (pre i + (p - pre i)) with p in Ex by lia.
  - split; [right; right; split; [auto|lia]|]. unfold wvf. simpl. rewrite Ex. reflexivity.
  - split; [right; right; split; [auto|lia]|]. unfold wvf. simpl. rewrite Ex. reflexivity.
Qed.
Lemma evn2_own t l v : t < nt -> EWr l v ∈ evn2 t -> own3 rspec n nt cut t l /\ wvf rspec n cut l = Some v.
Proof.
  intros Ht. unfold evn2. rewrite elem_of_app, !elem_of_cons, elem_of_events.
  assert (Hp : EWr l v <> ev_pos cut t) by (unfold ev_pos; destruct (_ <? _); discriminate).
  intros [Hin|[Hin|[Hin|(i & Hi & Hin)]]]; try congruence.
  - apply (ev_sro_wr rspec n nt cut Hnt Hcut0 Hcutn Hcutm t l v Ht Hin).
  - apply (evrow_own t i l v Ht ltac:(lia) Hin).
Qed.
Lemma evn2_rd t u l : t < nt -> u < nt -> ERd l ∈ evn2 t -> own3 rspec n nt cut u l -> u = t.
Proof.
  intros Ht Hu. unfold evn2, evrow. rewrite elem_of_app, !elem_of_cons, elem_of_events.
  intros [Hin|[Hin|[Hin|(i & Hi & Hin)]]] Ho.
  - apply (ev_sro_rd rspec n nt cut Hnt Hcut0 Hcutn Hcutm t u l Ht Hu Hin Ho).
  - apply (ev_pos_rd rspec n nt cut Hnt Hcut0 Hcutn Hcutm t u l Ht Hu Hin Ho).
  - apply (ev_pos_rd rspec n nt cut Hnt Hcut0 Hcutn Hcutm t u l Ht Hu Hin Ho).
  - rewrite elem_of_cons, elem_of_app in Hin. destruct Hin as [Hin|[Hin|Hin]]; try (exfalso; eapply ev_store_rd, Hin).
    injection Hin as ->. destruct Ho as [[_ H]|[[H _]|[[H|H] _]]]; try discriminate.
    eapply (cut_disj rspec n nt cut Hnt Hcut0 Hcutn Hcutm); eauto. lia.
Qed.
Lemma evn2_any t u l : (forall t, t + 1 < nt -> cut t < cut (t + 1)) -> t < nt -> u < nt -> EAny l ∈ evn2 t -> own3 rspec n nt cut u l -> u = t.
Proof.
  intros Hne Ht Hu. unfold evn2, evrow. rewrite elem_of_app, !elem_of_cons, elem_of_events.
  intros [Hin|[Hin|[Hin|(i & Hi & Hin)]]] Ho.
  - exfalso. apply (ev_sro_any rspec n nt cut t l Hin).
  - apply (own3_any t u l); assumption.
  - apply (own3_any t u l); assumption.
  - rewrite elem_of_cons, elem_of_app in Hin. destruct Hin as [Hin|[Hin|Hin]]; [discriminate|..]; exfalso; eapply ev_store_any, Hin.
Qed.

(** A cell written while storing whole threads is written while storing rows. *)
Lemma ev_rows t (p : nat) (x : nat * V) : t < nt -> tout t !! p = Some x ->
  exists i, cut t <= i < cut (t + 1) /\ pre i <= pre (cut t) + p /\ rspec i !! (pre (cut t) + p - pre i) = Some x.
Proof.
  intros Ht Hp. pose proof (cut_range t Ht) as Hr.
  assert (Hg : forall b, cut t <= b -> b <= cut (t + 1) -> forall p, rowsOf rspec (cut t) b !! p = Some x ->
    exists i, cut t <= i < b /\ pre i <= pre (cut t) + p /\ rspec i !! (pre (cut t) + p - pre i) = Some x).
  { induction 1 as [|b Hb IH]; intros Hle q Hq; [rewrite rowsOf_nil in Hq by lia; discriminate|].
    rewrite rowsOf_S in Hq by lia. apply lookup_app_Some in Hq as [Hq|[Hge Hq]].
    - destruct (IH ltac:(lia) q Hq) as (i & Hi & H1). exists i. split; [lia|exact H1].
    - rewrite rowsOf_length in Hge, Hq by lia. pose proof (pre_le rspec (cut t) b ltac:(lia)) as Hp1.
      exists b. split; [lia|]. split; [lia|]. replace (pre (cut t) + q - pre b) with (q - (pre b - pre (cut t))) by lia. exact Hq. }
  apply (Hg (cut (t + 1)) ltac:(lia) ltac:(lia) p Hp).
Qed.
Lemma evn2_store a (f : list (nat * V) -> list (val V)) t x : t < nt -> (a = aCi /\ f = cis) \/ (a = aVa /\ f = vas) ->
  x ∈ ev_store a (pre (cut t)) (f (tout t)) -> x ∈ evn2 t.
Proof.
  intros Ht Hf Hin. destruct x as [l|l|[b p] v]; [exfalso; eapply ev_store_rd, Hin|exfalso; eapply ev_store_any, Hin|].
  apply ev_store_elem in Hin as (-> & Hle & Hlk).
  assert (exists y, tout t !! (p - pre (cut t)) = Some y) as [y Hy].
  { destruct Hf as [[-> ->]|[-> ->]]; unfold cis, vas in Hlk; rewrite list_lookup_fmap in Hlk;
      destruct (tout t !! (p - pre (cut t))); try discriminate; eauto. }
  destruct (ev_rows t _ y Ht Hy) as (i & Hi & Hp & Hr). replace (pre (cut t) + (p - pre (cut t)) - pre i) with (p - pre i) in Hr by lia.
  unfold evn2, evrow. rewrite elem_of_app, !elem_of_cons, elem_of_events. right. right. right. exists i. split; [lia|].
  rewrite elem_of_cons, elem_of_app. right.
  destruct Hf as [[-> ->]|[-> ->]]; [left|right]; apply ev_store_elem; (split; [reflexivity|]); (split; [lia|]);
    unfold cis, vas in *; rewrite list_lookup_fmap in *; rewrite Hr; rewrite Hy in Hlk; exact Hlk.
Qed.

Lemma phase3_2p iA iB iM iR nc e m (rs : nat -> t2) : e !! iR = Some (OFresh n nc (pre n)) -> deref e iA = Ok A -> deref e iB = Ok B -> deref e iM = Ok M ->
  mem3 rspec n nt cut m -> (forall t, t < nt -> state2_ok t (rs t)) ->
  (exists m', always (m, imap (numeric2p alg iA iB iM iR nt e) (rs <$> seq 0 nt)) m' (rs <$> seq 0 nt) /\
     outMatrix e m' iR = Some (assemble rspec n nc)) /\
  ((forall t, t + 1 < nt -> cut t < cut (t + 1)) -> race_free (m, imap (numeric2p alg iA iB iM iR nt e) (rs <$> seq 0 nt))).
Proof.
  intros He HA HB HM Hm Hrs. assert (Hl : length (rs <$> seq 0 nt) = nt) by (rewrite fmap_length, seq_length; reflexivity).
  assert (Hs : forall t s, t < nt -> (rs <$> seq 0 nt) !! t = Some s -> exists mf, solo m (numeric2p alg iA iB iM iR nt e t s) (evn2 t) (rs t) mf).
  { intros t s Ht Hls. rewrite list_lookup_fmap, lookup_seq_lt in Hls by exact Ht. injection Hls as <-. eapply numeric2p_solo; eauto. }
  split.
  - destruct (owned_phase nt (rs <$> seq 0 nt) (numeric2p alg iA iB iM iR nt) e m evn2 rs (own3 rspec n nt cut) (wvf rspec n cut) Hl Hs)
      as (m' & H1 & H2 & H3).
    + intros t l v Ht Hin. apply evn2_own; assumption.
    + intros t u l. apply evn2_rd.
    + intros t u l. apply (own3_excl rspec n nt cut Hnt Hcut0 Hcutn Hcutm).
    + exists m'. split; [exact H1|]. apply (out_cells m' evn2 H2); [| | |exact He]; intros t x Ht Hx.
      * unfold evn2. apply elem_of_app. left. exact Hx.
      * apply (evn2_store aCi cis t x Ht ltac:(auto) Hx).
      * apply (evn2_store aVa vas t x Ht ltac:(auto) Hx).
  - intros Hne. apply (owned_race_free nt (rs <$> seq 0 nt) (numeric2p alg iA iB iM iR nt) e m evn2 rs (own3 rspec n nt cut) Hl Hs).
    + intros t l v Ht Hin. apply (evn2_own t l v Ht Hin).
    + intros t u l. apply evn2_rd.
    + intros t u l. apply evn2_any, Hne.
    + intros t u l. apply (own3_excl rspec n nt cut Hnt Hcut0 Hcutn Hcutm).
Qed.
End Cut.

Lemma start_states {S} (s0 : S) : exists k, replicate nt s0 = s0 :: k.
Proof. destruct nt; [lia|]. simpl. eauto. Qed.
Lemma cons_states {S} (f : nat -> S) : exists s0 k, f <$> seq 0 nt = s0 :: k.
Proof. destruct nt; [lia|]. simpl. eauto. Qed.

Lemma verify_ok : verifyInputs A B M = Ok tt.
Proof. destruct HC as [_ _ _ H1 H2 H3]. unfold verifyInputs. rewrite H1, H2, H3, !Nat.eqb_refl. reflexivity. Qed.

Lemma colsOf_mat (e : gmap nat (obj V)) i X : e !! i = Some (OMat X) -> colsOf e i = Ok (cols X).
Proof. unfold colsOf. intros ->. reflexivity. Qed.
Lemma deref_mat (e : gmap nat (obj V)) i X : e !! i = Some (OMat X) -> deref e i = Ok X.
Proof. unfold deref. intros ->. reflexivity. Qed.

Theorem driver1p_ok iA iB iM iC sc (s : gmap nat (obj V)) :
  s !! iA = Some (OMat A) -> s !! iB = Some (OMat B) -> s !! iM = Some (OMat M) ->
  driver1p_always alg iA iB iM iC nt sc s (<[iC := OMat (assemble rspec n (cols B))]> s).
Proof.
  intros HA HB HM. exists A, B, M. do 3 (split; [apply deref_mat; assumption|]). split; [exact verify_ok|].
  destruct prepare_ok as (cum & Lc & Hp). exists flops, cum, total. split; [exact Hp|].
  destruct (distribute_ok total cum n nt ltac:(lia) Hnt) as (cut & C0 & Cn & Cm & Hd).
  destruct (phase1_1p cum cut C0 Cn Cm Hd iA iB iM sc s (replicate nt (mkT1 0 0 []))) as [(m1 & H1 & Hnv & Htn) _];
    [apply deref_mat; assumption..|apply replicate_length|].
  destruct (initC_ok rspec n nt cut Hnt C0 Cn Cm iA iB iC s m1 A (cols B) HA (colsOf_mat _ _ _ HB) eq_refl Hnv Htn) as (m2 & Hi & Hm2).
  set (e := <[iC := OFresh n (cols B) (pre n)]> s).
  destruct (phase3_1p cum cut C0 Cn Cm Hd iC (cols B) e m2) as [(m3 & H3 & Ho) _]; [apply lookup_insert|exact Hm2|].
  exists e, m3, (state1 cut <$> seq 0 nt). split.
  - unfold region1p. eapply ra_par; [exact H1|].
    destruct (cons_states (state1 cut)) as (s0 & k & Es). rewrite Es. eapply ra_master; [exact Hi|]. rewrite <- Es.
    eapply ra_par; [exact H3|]. constructor.
  - exists (assemble rspec n (cols B)). split; [exact Ho|]. unfold e. rewrite insert_insert. reflexivity.
Qed.

(** [iR] is a new object: not one of the inputs, not in the store. *)
Theorem driver2p_ok iA iB iM iC iR sc (s : gmap nat (obj V)) :
  s !! iA = Some (OMat A) -> s !! iB = Some (OMat B) -> s !! iM = Some (OMat M) -> s !! iR = None -> iC <> iR ->
  driver2p_always alg iA iB iM iC iR nt sc s (<[iC := OMat (assemble rspec n (cols B))]> s).
Proof.
  intros HA HB HM HR HCR. exists A, B, M. do 3 (split; [apply deref_mat; assumption|]). split; [exact verify_ok|].
  destruct prepare_ok as (cum & Lc & Hp). exists flops, cum, total. split; [exact Hp|].
  destruct (distribute_ok total cum n nt ltac:(lia) Hnt) as (cut & C0 & Cn & Cm & Hd).
  set (s1 := <[iR := OMat (mkCsr 0 0 0 [] [] [])]> s).
  assert (HA1 : s1 !! iA = Some (OMat A)) by (unfold s1; rewrite lookup_insert_ne by congruence; exact HA).
  assert (HB1 : s1 !! iB = Some (OMat B)) by (unfold s1; rewrite lookup_insert_ne by congruence; exact HB).
  assert (HM1 : s1 !! iM = Some (OMat M)) by (unfold s1; rewrite lookup_insert_ne by congruence; exact HM).
  destruct (phase1_2p cum cut C0 Cn Cm Hd iA iB iM sc s1 (replicate nt (mkT2 0 0 (mkParams 0 0 0 0) (mkBuf 0 0 0 (fun _ => false)))))
    as [(m1 & rs & H1 & Hst & Hnv & Htn) _]; [apply deref_mat; assumption..|apply replicate_length|].
  destruct (initC_ok rspec n nt cut Hnt C0 Cn Cm iA iB iR s1 m1 A (cols B) HA1 (colsOf_mat _ _ _ HB1) eq_refl Hnv Htn) as (m2 & Hi & Hm2).
  set (e := <[iR := OFresh n (cols B) (pre n)]> s1).
  destruct (phase3_2p cum cut C0 Cn Cm Hd iA iB iM iR (cols B) e m2 rs) as [(m3 & H3 & Ho) _].
  { apply lookup_insert. }
  1-3: apply deref_mat; unfold e; rewrite lookup_insert_ne by congruence; assumption.
  { exact Hm2. }
  { exact Hst. }
  exists e, m3, (rs <$> seq 0 nt). split.
  - unfold region2p. eapply ra_par; [exact H1|].
    destruct (cons_states rs) as (s0 & k & Es). rewrite Es. eapply ra_master; [exact Hi|]. rewrite <- Es.
    eapply ra_par; [exact H3|]. constructor.
  - exists (assemble rspec n (cols B)). split; [exact Ho|]. unfold e, s1. rewrite insert_insert.
    rewrite insert_commute by congruence. rewrite delete_insert; [reflexivity|]. rewrite lookup_insert_ne by congruence. exact HR.
Qed.

End Driver.
