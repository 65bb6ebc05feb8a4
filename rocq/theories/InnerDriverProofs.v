(** The drivers of the inner-product algorithm (masked-spgemm-inner.h). *)
From Verif Require Import MemModel MemProofs BaseProofs ConcProofs ScanProofs ScanStatements WorkProofs Assemble DriverModel DriverBase DriverProofs
  InnerModel InnerDriverModel.
From Verif Require Import Base Spec.

Section Inner.
Context {V : Type} (mul add : V -> V -> V) (A M : csr V) (B : csc V) (rspec : nat -> list (nat * V)).
Hypothesis WA : wf A.
Hypothesis WB : wf_csc B.
Hypothesis WM : wf M.
Hypothesis Hinner : cols A = c_rows B.
Hypothesis HMr : rows M = rows A.
Hypothesis HMc : cols M = c_cols B.
Hypothesis Hnum : forall row dn cap, row < rows A -> length dn + length (rspec row) <= cap ->
  innerNumericRow mul add A B M row (mkOut dn cap) = Ok (mkOut (dn ++ rspec row) cap).
Hypothesis Hsym : forall row, row < rows A -> innerSymbolicRow A B M row = Ok (length (rspec row)).
Hypothesis Hlen : forall row, row < rows A -> length (rspec row) <= length (row_entries M row).
Hypothesis Hzero : forall row, row < rows A -> workOf A B M row = 0 -> rspec row = [].
Hypothesis Hrows : 1 <= rows A.
Context (nt : nat) (Hnt : 1 <= nt).
Notation n := (rows A).
Notation pre := (pre rspec).
Notation mp := (Assemble.pre (row_entries M)).
Notation ev := (@event loc (val V)).
Notation mem := (gmap loc (val V)).

Definition work : list nat := workOf A B M <$> seq 0 n.
Definition wtotal : nat := sum_list work.

Lemma work_get i : i < n -> get work i = Ok (workOf A B M i).
Proof. intros H. apply get_Some. unfold work. rewrite list_lookup_fmap, lookup_seq_lt by exact H. reflexivity. Qed.

Lemma prepareI_ok : exists cum, length cum = n /\ prepareI_always A B M nt work cum wtotal.
Proof.
  assert (L : length work = n) by (unfold work; rewrite fmap_length, seq_length; reflexivity).
  exists ((fun i => fold_left Nat.add (take i work) 0) <$> seq 0 n). split; [rewrite fmap_length, seq_length; reflexivity|].
  split.
  - unfold wtotal, work. pose proof (calculateWork_ok A M B (replicate (rows M) None)) as H.
    rewrite drop_ge, app_nil_r in H by (rewrite replicate_length; lia). rewrite fmap_Some_seq in H. rewrite HMr in *.
    apply H; try assumption; try reflexivity. rewrite replicate_length. lia.
  - pose proof (exclusive_scan_ok 0 Nat.add work n nt (replicate n None)) as H. rewrite HMr.
    rewrite drop_ge, app_nil_r in H by (rewrite replicate_length; lia). rewrite fmap_Some_seq in H.
    apply H; try lia. rewrite replicate_length. lia.
Qed.

Lemma mp_get i : i <= n -> get (rowptr M) i = Ok (mp i).
Proof. intros H. apply get_Some, wf_pre; [exact WM|lia]. Qed.
Lemma mp_n : mp n = nnz M.
Proof. pose proof (wf_pre M n WM ltac:(lia)) as H. rewrite <- HMr, (wf_last M WM) in H at 1. injection H as <-. reflexivity. Qed.
Lemma pre_mp a b : a <= b <= n -> pre b - pre a <= mp b - mp a.
Proof.
  intros [Hab Hb]. revert Hb. induction Hab as [|b Hab IH]; intros Hb; [lia|]. rewrite !pre_S. specialize (IH ltac:(lia)).
  pose proof (Hlen b ltac:(lia)). pose proof (pre_le rspec a b Hab). pose proof (pre_le (row_entries M) a b Hab). lia.
Qed.

Section Cut.
Context (cum : list nat) (cut : nat -> nat).
Hypothesis Hcut0 : cut 0 = 0.
Hypothesis Hcutn : cut nt = n.
Hypothesis Hcutm : forall t, t < nt -> cut t <= cut (t + 1).
Hypothesis Hdist : forall t, t < nt -> distributeWork wtotal cum n nt t = Ok (cut t, cut (t + 1)).
Notation tnv := (tnv rspec cut).
Notation tout := (tout rspec cut).

Lemma cut_rangeI t : t < nt -> cut t <= cut (t + 1) <= n.
Proof. intros Ht. split; [apply Hcutm, Ht|]. apply (cut_n rspec n nt cut Hnt Hcut0 Hcutn Hcutm); lia. Qed.

(** ** One phase: first part *)
Definition tb (t i : nat) : nat := mp (cut t) + (pre i - pre (cut t)).
Definition evI_stores (t i : nat) : list ev := ev_store aTc (tb t i) (cis (rspec i)) ++ ev_store aTv (tb t i) (vas (rspec i)).
Definition evI_row (t i : nat) : list ev :=
  (if workOf A B M i =? 0 then [EWr (aNv, i) (VN 0)] else []) ++ evI_stores t i ++ [EWr (aNv, i) (VN (length (rspec i)))].
Definition evI1 (t : nat) : list ev :=
  mjoin (evI_row t <$> seq (cut t) (cut (t + 1) - cut t)) ++ [EWr (aTn, t) (VN (tnv t))].

Lemma startI_nv i : i < n -> is_Some (startMemI (V := V) n nt (nnz M) !! (aNv, i)).
Proof.
  intros H. unfold startMemI. destruct (startMem_nv rspec n nt cut Hnt Hcut0 Hcutn Hcutm i H) as [v Hv].
  rewrite !lookup_union, Hv. destruct (cells aTc _ !! _); simpl; destruct (cells aTv _ !! _); simpl; eauto.
Qed.
Lemma startI_tn i : i < nt -> is_Some (startMemI (V := V) n nt (nnz M) !! (aTn, i)).
Proof.
  intros H. unfold startMemI. destruct (startMem_tn rspec n nt cut Hnt Hcut0 Hcutn Hcutm i H) as [v Hv].
  rewrite !lookup_union, Hv. destruct (cells aTc _ !! _); simpl; destruct (cells aTv _ !! _); simpl; eauto.
Qed.
Lemma startI_tmp a i : i < nnz M -> a = aTc \/ a = aTv -> is_Some (startMemI (V := V) n nt (nnz M) !! (a, i)).
Proof.
  intros H Ha. unfold startMemI. rewrite !lookup_union, !cells_lookup.
  destruct Ha as [-> | ->]; simpl; rewrite lookup_replicate_2 by lia; destruct (startMem n nt !! _); simpl; eauto.
Qed.

Lemma numericI1p_solo iA iB iM e t : deref e iA = Ok A -> deref_csc e iB = Ok B -> deref e iM = Ok M -> t < nt ->
  exists m', solo (startMemI n nt (nnz M)) (numericI1p mul add iA iB iM nt work cum wtotal e t) (evI1 t) (mkTi (cut t) (cut (t + 1)) (mp (cut t))) m'.
Proof.
  intros HA HB HM Ht. pose proof (cut_rangeI t Ht) as Hr.
  set (cap := nnz M - mp (cut t)).
  set (Inv := fun i (s : list (nat * V)) (m : mem) =>
    s = rowsOf rspec (cut t) i /\ forall l, is_Some (startMemI (V := V) n nt (nnz M) !! l) -> is_Some (m !! l)).
  assert (Hloop : exists s' m', solo (startMemI n nt (nnz M)) (pfor_n (cut (t + 1) - cut t) (cut t) (rowI1p mul add work A B M (mp (cut t))) [])
      (mjoin (evI_row t <$> seq (cut t) (cut (t + 1) - cut t))) s' m' /\
    Inv (cut t + (cut (t + 1) - cut t)) s' m').
  { apply solo_pfor_n.
    - intros i dn m Hi (-> & Hd). assert (Hin : i < n) by lia.
      pose proof (pre_le rspec (cut t) i ltac:(lia)) as Hp1.
      assert (Lr : length (rowsOf rspec (cut t) i) = pre i - pre (cut t)) by (apply rowsOf_length; lia).
      assert (Hcap : pre i - pre (cut t) + length (rspec i) <= cap).
      { pose proof (pre_mp (cut t) (S i) ltac:(lia)) as H. rewrite pre_S in H.
        pose proof (pre_le (row_entries M) (S i) n ltac:(lia)) as H2. rewrite mp_n in H2. unfold cap. lia. }
      assert (Hbn : mp (cut t) + cap = nnz M).
      { pose proof (pre_le (row_entries M) (cut t) n ltac:(lia)) as H2. rewrite mp_n in H2. unfold cap. lia. }
      (* rowNvals[row] = 0 when there is no work *)
      set (w0 := if workOf A B M i =? 0 then [EWr (aNv, i) (VN 0)] else [] : list ev).
      assert (H0 : exists m0, solo m (if workOf A B M i =? 0 then Wr (aNv, i) (VN 0) (Ret tt) else Ret tt) w0 tt m0).
      { unfold w0. destruct (workOf A B M i =? 0); eexists; [apply solo_wr; [apply Hd, startI_nv, Hin|]|]; constructor. }
      destruct H0 as (m0 & H0).
      assert (Hst : exists mr, solo m0 (storeEntries aTc aTv (tb t i) (tb t i) (rspec i)) (evI_stores t i) tt mr).
      { unfold storeEntries, evI_stores.
        destruct (storeAt_solo aTc (cis (rspec i)) (tb t i) m0) as [mc Hc].
        { intros k Hk. unfold cis in Hk. rewrite fmap_length in Hk. apply (solo_dom _ _ _ _ _ _ H0), Hd, startI_tmp; [unfold tb; lia|auto]. }
        destruct (storeAt_solo aTv (vas (rspec i)) (tb t i) mc) as [mv Hv].
        { intros k Hk. unfold vas in Hk. rewrite fmap_length in Hk.
          apply (solo_dom _ _ _ _ _ _ Hc), (solo_dom _ _ _ _ _ _ H0), Hd, startI_tmp; [unfold tb; lia|auto]. }
        exists mv. eapply solo_bind; eauto. }
      destruct Hst as (mr & Hst).
      assert (Hdr : forall l, is_Some (startMemI (V := V) n nt (nnz M) !! l) -> is_Some (mr !! l)).
      { intros l Hl. apply (solo_dom _ _ _ _ _ _ Hst), (solo_dom _ _ _ _ _ _ H0), Hd, Hl. }
      exists (rowsOf rspec (cut t) (S i)), (<[(aNv, i) := VN (length (rspec i))]> mr). split.
      + unfold rowI1p, evI_row. eapply solo_lift; [apply work_get, Hin|]. cbn beta.
        eapply solo_bind; [exact H0|]. eapply solo_lift; [apply Hnum; [exact Hin|rewrite Lr; exact Hcap]|]. cbn beta zeta. cbn [o_done].
        rewrite drop_app_alt by reflexivity. rewrite Lr. fold (tb t i).
        eapply solo_bind; [exact Hst|]. rewrite app_length, Lr.
        replace (pre i - pre (cut t) + length (rspec i) - (pre i - pre (cut t))) with (length (rspec i)) by lia.
        rewrite <- rowsOf_S by lia. apply solo_wr; [apply Hdr, startI_nv, Hin|constructor].
      + split; [reflexivity|]. intros l Hl.
        destruct (decide (l = (aNv, i))) as [->|Hne]; [rewrite lookup_insert; eauto|rewrite lookup_insert_ne by congruence; auto].
    - split; [rewrite rowsOf_nil by lia; reflexivity|auto]. }
  destruct Hloop as (s' & m' & Hs & -> & Hd).
  replace (cut t + (cut (t + 1) - cut t)) with (cut (t + 1)) in * by lia.
  exists (<[(aTn, t) := VN (tnv t)]> m'). unfold numericI1p.
  eapply solo_lift; [exact HA|]. eapply solo_lift; [exact HB|]. eapply solo_lift; [exact HM|].
  eapply solo_lift; [apply Hdist, Ht|]. cbn beta iota. eapply solo_lift; [apply mp_get; lia|].
  unfold evI1. eapply solo_bind; [exact Hs|].
  change (rowsOf rspec (cut t) (cut (t + 1))) with (tout t). rewrite (tout_length rspec nt cut Hcutm t Ht).
  apply solo_wr; [apply Hd, startI_tn, Ht|]. constructor.
Qed.

(** Cells written in the first part, and by whom. *)
Definition own1I (t : nat) (l : loc) : Prop :=
  own1 cut t l \/ ((fst l = aTc \/ fst l = aTv) /\ mp (cut t) <= snd l < mp (cut (t + 1))).
Definition wvfI (t : nat) (l : loc) : option (val V) :=
  let '(a, i) := l in
  if decide (a = aTc) then (fun e => VN (fst e)) <$> tout t !! (i - mp (cut t))
  else if decide (a = aTv) then (fun e => VV (snd e)) <$> tout t !! (i - mp (cut t))
  else wvf rspec n cut l.

Lemma own1I_excl t u l : t < nt -> u < nt -> own1I t l -> own1I u l -> t = u.
Proof.
  destruct l as [a i]. intros Ht Hu [H1|[H1 H2]] [H3|[H3 H4]].
  - apply (own1_excl rspec n nt cut Hnt Hcut0 Hcutn Hcutm t u (a, i)); assumption.
  - exfalso. cbn [fst] in H3. destruct H1 as [[-> _]|[-> _]], H3; discriminate.
  - exfalso. cbn [fst] in H1. destruct H3 as [[-> _]|[-> _]], H1; discriminate.
  - cbn [snd] in *. eapply (pcut_disj (row_entries M) n nt cut Hnt Hcut0 Hcutn Hcutm); eauto.
Qed.

Lemma row_in_tout t i k x : t < nt -> cut t <= i < cut (t + 1) -> rspec i !! k = Some x -> tout t !! (pre i - pre (cut t) + k) = Some x.
Proof.
  intros Ht Hi Hk. pose proof (cut_rangeI t Ht) as Hr. pose proof (lookup_lt_Some _ _ _ Hk) as Hlt.
  pose proof (pre_le rspec (cut t) i ltac:(lia)) as Hp1. pose proof (pre_le rspec (S i) (cut (t + 1)) ltac:(lia)) as Hp2. rewrite pre_S in Hp2.
  assert (H : rowsOf rspec 0 n !! (pre i + k) = Some x).
  { rewrite (rowsOf_lookup rspec i (S i) n) by (rewrite ?pre_S; lia). replace (pre i + k - pre i) with k by lia.
    rewrite rowsOf_S, rowsOf_nil by lia. exact Hk. }
  rewrite (rowsOf_lookup rspec (cut t) (cut (t + 1)) n) in H by lia.
  replace (pre i - pre (cut t) + k) with (pre i + k - pre (cut t)) by lia. exact H.
Qed.

Lemma evI1_own t l v : t < nt -> EWr l v ∈ evI1 t -> own1I t l /\ wvfI t l = Some v.
Proof.
  intros Ht. pose proof (cut_rangeI t Ht) as Hr. destruct l as [a p].
  unfold evI1, evI_row, evI_stores. rewrite elem_of_app, elem_of_events. intros [(i & Hi & Hin)|Hin].
  - pose proof (pre_le rspec (cut t) i ltac:(lia)) as Hp1.
    pose proof (pre_mp (cut t) (S i) ltac:(lia)) as Hpm. rewrite pre_S in Hpm.
    pose proof (pre_le (row_entries M) (S i) (cut (t + 1)) ltac:(lia)) as Hm2.
    rewrite !elem_of_app in Hin. destruct Hin as [Hin|[[Hin|Hin]|Hin]].
    + destruct (Nat.eqb_spec (workOf A B M i) 0) as [Hz|]; [|inversion Hin]. apply elem_of_list_singleton in Hin. injection Hin as -> -> ->.
      split; [left; left; split; [reflexivity|lia]|]. unfold wvfI, wvf. simpl. rewrite (Hzero i ltac:(lia) Hz). reflexivity.
    + apply ev_store_elem in Hin as (-> & Hle & Hlk). unfold cis in Hlk. rewrite list_lookup_fmap in Hlk.
      destruct (rspec i !! (p - tb t i)) as [x|] eqn:Ex; [|discriminate]. injection Hlk as <-.
      pose proof (lookup_lt_Some _ _ _ Ex) as Hlt. apply (row_in_tout t i _ x Ht ltac:(lia)) in Ex. unfold tb in *.
      split; [right; cbn [fst snd]; split; [auto|lia]|]. unfold wvfI. simpl.
      replace (pre i - pre (cut t) + (p - (mp (cut t) + (pre i - pre (cut t))))) with (p - mp (cut t)) in Ex by lia. rewrite Ex. reflexivity.
    + apply ev_store_elem in Hin as (-> & Hle & Hlk). unfold vas in Hlk. rewrite list_lookup_fmap in Hlk.
      destruct (rspec i !! (p - tb t i)) as [x|] eqn:Ex; [|discriminate]. injection Hlk as <-.
      pose proof (lookup_lt_Some _ _ _ Ex) as Hlt. apply (row_in_tout t i _ x Ht ltac:(lia)) in Ex. unfold tb in *.
      split; [right; cbn [fst snd]; split; [auto|lia]|]. unfold wvfI. simpl.
      replace (pre i - pre (cut t) + (p - (mp (cut t) + (pre i - pre (cut t))))) with (p - mp (cut t)) in Ex by lia. rewrite Ex. reflexivity.
    + apply elem_of_list_singleton in Hin. injection Hin as -> -> ->. split; [left; left; split; [reflexivity|lia]|]. reflexivity.
  - apply elem_of_list_singleton in Hin; injection Hin as -> -> ->. split; [left; right; auto|]. reflexivity.
Qed.
Lemma evI1_wr t x : x ∈ evI1 t -> exists l v, x = EWr l v.
Proof.
  unfold evI1, evI_row, evI_stores. rewrite elem_of_app, elem_of_events. destruct x as [l|l|l v]; [| |eauto]; intros [(i & Hi & Hin)|Hin]; exfalso;
    try (apply elem_of_list_singleton in Hin; discriminate); rewrite !elem_of_app in Hin; destruct Hin as [Hin|[[Hin|Hin]|Hin]];
    try (apply elem_of_list_singleton in Hin; discriminate); try (eapply ev_store_rd, Hin); try (eapply ev_store_any, Hin);
    (destruct (_ =? _); [apply elem_of_list_singleton in Hin; discriminate|inversion Hin]).
Qed.

Definition stateI (t : nat) : ti := mkTi (cut t) (cut (t + 1)) (mp (cut t)).
(** The temporary arrays hold the threads' entries. *)
Definition tmp_ok (m : mem) : Prop := forall t k x, t < nt -> tout t !! k = Some x ->
  m !! (aTc, mp (cut t) + k) = Some (VN (fst x)) /\ m !! (aTv, mp (cut t) + k) = Some (VV (snd x)).

(** Each entry of a thread lies in one of its rows. *)
Lemma tout_row t k x : t < nt -> tout t !! k = Some x ->
  exists i, cut t <= i < cut (t + 1) /\ pre i <= pre (cut t) + k /\ rspec i !! (pre (cut t) + k - pre i) = Some x.
Proof.
  intros Ht Hp. pose proof (cut_rangeI t Ht) as Hr.
  assert (Hg : forall b, cut t <= b -> b <= cut (t + 1) -> forall p, rowsOf rspec (cut t) b !! p = Some x ->
    exists i, cut t <= i < b /\ pre i <= pre (cut t) + p /\ rspec i !! (pre (cut t) + p - pre i) = Some x).
  { induction 1 as [|b Hb IH]; intros Hle q Hq; [rewrite rowsOf_nil in Hq by lia; discriminate|].
    rewrite rowsOf_S in Hq by lia. apply lookup_app_Some in Hq as [Hq|[Hge Hq]].
    - destruct (IH ltac:(lia) q Hq) as (i & Hi & H1). exists i. split; [lia|exact H1].
    - rewrite rowsOf_length in Hge, Hq by lia. pose proof (pre_le rspec (cut t) b ltac:(lia)) as Hp1.
      exists b. split; [lia|]. split; [lia|]. replace (pre (cut t) + q - pre b) with (q - (pre b - pre (cut t))) by lia. exact Hq. }
  apply (Hg (cut (t + 1)) ltac:(lia) ltac:(lia) k Hp).
Qed.

Lemma phase1_I1p iA iB iM e ss : deref e iA = Ok A -> deref_csc e iB = Ok B -> deref e iM = Ok M -> length ss = nt ->
  (exists m1, always (startMemI n nt (nnz M), imap (fun t (_ : ti) => numericI1p mul add iA iB iM nt work cum wtotal e t) ss) m1 (stateI <$> seq 0 nt) /\
    (forall i, i < n -> m1 !! (aNv, i) = Some (VN (length (rspec i)))) /\ (forall t, t < nt -> m1 !! (aTn, t) = Some (VN (tnv t))) /\ tmp_ok m1) /\
  race_free (startMemI n nt (nnz M), imap (fun t (_ : ti) => numericI1p mul add iA iB iM nt work cum wtotal e t) ss).
Proof.
  intros HA HB HM Hl. split.
  - destruct (owned_phase_t nt ss (fun e t (_ : ti) => numericI1p mul add iA iB iM nt work cum wtotal e t) e (startMemI n nt (nnz M)) evI1 stateI own1I wvfI Hl)
      as (m1 & H1 & H2 & H3).
    + intros t s Ht _. apply numericI1p_solo; assumption.
    + intros t l v Ht Hin. apply evI1_own; assumption.
    + intros t u l _ _ Hin. exfalso. apply evI1_wr in Hin as (? & ? & ?). discriminate.
    + intros t u l. apply own1I_excl.
    + exists m1. split; [exact H1|]. split; [|split].
      * intros i Hi. destruct (cut_cover cut nt i Hcut0 ltac:(lia)) as (t & Ht & Hc). apply (H2 t _ _ Ht).
        unfold evI1, evI_row. rewrite elem_of_app, elem_of_events. left. exists i. split; [lia|]. rewrite !elem_of_app. right. right. left.
      * intros t Ht. apply (H2 t _ _ Ht). unfold evI1. apply elem_of_app. right. left.
      * intros t k x Ht Hk. destruct (tout_row t k x Ht Hk) as (i & Hi & Hp & Hrow).
        pose proof (pre_le rspec (cut t) i ltac:(lia)) as Hp1. pose proof (lookup_lt_Some _ _ _ Hrow) as Hlt.
        split; apply (H2 t _ _ Ht); unfold evI1, evI_row, evI_stores; rewrite elem_of_app, elem_of_events; left; exists i; (split; [lia|]);
          rewrite !elem_of_app; right; left; [left|right]; apply ev_store_elem; (split; [reflexivity|]); unfold tb; (split; [lia|]);
          unfold cis, vas; rewrite list_lookup_fmap;
          replace (mp (cut t) + k - (mp (cut t) + (pre i - pre (cut t)))) with (pre (cut t) + k - pre i) by lia; rewrite Hrow; reflexivity.
  - apply (owned_race_free nt ss (fun e t (_ : ti) => numericI1p mul add iA iB iM nt work cum wtotal e t) e (startMemI n nt (nnz M)) evI1 stateI own1I Hl).
    + intros t s Ht _. apply numericI1p_solo; assumption.
    + intros t l v Ht Hin. apply (evI1_own t l v Ht Hin).
    + intros t u l _ _ Hin. exfalso. apply evI1_wr in Hin as (? & ? & ?). discriminate.
    + intros t u l _ _ Hin. exfalso. apply evI1_wr in Hin as (? & ? & ?). discriminate.
    + intros t u l. apply own1I_excl.
Qed.

(** ** One phase: output *)
Definition ev_copy (src from dst base : nat) (l : list (val V)) : list ev :=
  mjoin ((fun k => ERd (src, from + k) :: match l !! k with Some v => [EWr (dst, base + k) v] | None => [] end) <$> seq 0 (length l)).
Lemma ev_copy_wr src from dst base l a i v : EWr (a, i) v ∈ ev_copy src from dst base l <-> EWr (a, i) v ∈ ev_store dst base l.
Proof.
  unfold ev_copy. rewrite elem_of_events, ev_store_elem. split.
  - intros (k & Hk & Hin). apply elem_of_cons in Hin as [Hin|Hin]; [discriminate|]. destruct (l !! k) as [w|] eqn:E; [|inversion Hin].
    apply elem_of_list_singleton in Hin. injection Hin as -> -> ->. split; [reflexivity|]. split; [lia|].
    replace (base + k - base) with k by lia. exact E.
  - intros (-> & Hle & Hl). exists (i - base). split; [apply lookup_lt_Some in Hl; lia|]. right. rewrite Hl.
    apply elem_of_list_singleton. f_equal. f_equal. lia.
Qed.
Lemma ev_copy_rd src from dst base l x : ERd x ∈ ev_copy src from dst base l -> fst x = src.
Proof.
  unfold ev_copy. rewrite elem_of_events. intros (k & Hk & Hin). apply elem_of_cons in Hin as [Hin|Hin]; [injection Hin as ->; reflexivity|].
  destruct (l !! k); [apply elem_of_list_singleton in Hin; discriminate|inversion Hin].
Qed.
Lemma ev_copy_any src from dst base l x : EAny x ∉ ev_copy src from dst base l.
Proof.
  unfold ev_copy. rewrite elem_of_events. intros (k & Hk & Hin). apply elem_of_cons in Hin as [Hin|Hin]; [discriminate|].
  destruct (l !! k); [apply elem_of_list_singleton in Hin; discriminate|inversion Hin].
Qed.

Lemma copyShared_solo src from dst base l m : (forall k v, l !! k = Some v -> m !! (src, from + k) = Some v /\ v <> VU) -> src <> dst ->
  (forall k, k < length l -> is_Some (m !! (dst, base + k))) ->
  exists m', solo m (copyShared src from dst (VN base) (length l)) (ev_copy src from dst base l) tt m'.
Proof.
  intros Hsrc Hne Hd. unfold copyShared, pfor, ev_copy. rewrite Nat.sub_0_r.
  destruct (solo_pfor_n (fun k (_ : unit) (m' : mem) => (forall l, is_Some (m !! l) -> is_Some (m' !! l)) /\ forall i, m' !! (src, i) = m !! (src, i))
    (fun k => ERd (src, from + k) :: match l !! k with Some v => [EWr (dst, base + k) v] | None => [] end)
    (fun k _ => Rd (src, from + k) (fun v => match v with VU => Fail Uninit | _ => Wr (dst, base + k) v (Ret tt) end)) (length l) 0 tt m)
    as (s' & m' & Hs & _).
  - intros k [] m0 Hk [Hdom Hsr]. destruct (lookup_lt_is_Some_2 l k ltac:(lia)) as [v Hv]. destruct (Hsrc k v Hv) as [Hm Hvu].
    exists tt, (<[(dst, base + k) := v]> m0). split.
    + eapply solo_rd; [rewrite Hsr; exact Hm|]. rewrite Hv.
      destruct v; [congruence| |]; (apply solo_wr; [apply Hdom, Hd; lia|constructor]).
    + split.
      * intros x Hx. destruct (decide (x = (dst, base + k))) as [->|Hn]; [rewrite lookup_insert; eauto|rewrite lookup_insert_ne by congruence; auto].
      * intros i. rewrite lookup_insert_ne by congruence. apply Hsr.
  - auto.
  - exists m'. destruct s'. exact Hs.
Qed.

Definition ev3I (t : nat) : list ev :=
  ev_sro rspec n nt cut t ++ [ERd (aTn, t)] ++ (ev_pos cut t :: ev_copy aTc (mp (cut t)) aCi (pre (cut t)) (cis (tout t)) ++
  (ev_pos cut t :: ev_copy aTv (mp (cut t)) aVa (pre (cut t)) (vas (tout t)))).

Lemma outputI1p_solo iC nc e m t : e !! iC = Some (OFresh n nc (pre n)) -> mem3 rspec n nt cut m -> tmp_ok m -> t < nt ->
  exists m', solo m (outputI1p iC nt e t (stateI t)) (ev3I t) (stateI t) m'.
Proof.
  intros HE Hm Htmp Ht. destruct (setRowOffsets_solo rspec n nt cut Hnt Hcut0 Hcutn Hcutm m t Ht Hm) as (m1 & Hs1 & Hm1 & Hk1).
  assert (L : length (tout t) = tnv t) by (apply (tout_length rspec nt cut Hcutm); exact Ht).
  assert (LC : length (cis (tout t)) = tnv t) by (unfold cis; rewrite fmap_length; exact L).
  assert (LV : length (vas (tout t)) = tnv t) by (unfold vas; rewrite fmap_length; exact L).
  assert (Hroom : forall k, k < tnv t -> pre (cut t) + k < pre n).
  { intros k Hk. pose proof (pcut_n rspec n nt cut Hnt Hcut0 Hcutn Hcutm (t + 1) ltac:(lia)). unfold DriverBase.tnv in Hk. lia. }
  assert (Hk1' : forall a i, 4 < a -> m1 !! (a, i) = m !! (a, i)).
  { intros a i Ha. apply (solo_keep _ _ _ _ _ _ Hs1). intros v Hin.
    apply (ev_sro_wr rspec n nt cut Hnt Hcut0 Hcutn Hcutm t _ _ Ht) in Hin as [Ho _].
    unfold own3, aNv, aRp, aCi, aVa in Ho. destruct Ho as [[? _]|[[? _]|[[?|?] _]]]; lia. }
  destruct (copyShared_solo aTc (mp (cut t)) aCi (pre (cut t)) (cis (tout t)) m1) as (m2 & Hs2).
  { intros k v Hk. unfold cis in Hk. rewrite list_lookup_fmap in Hk. destruct (tout t !! k) as [x|] eqn:Ex; [|discriminate]. injection Hk as <-.
    split; [|discriminate]. rewrite Hk1' by (unfold aTc; lia). apply (Htmp t k x Ht Ex). }
  { discriminate. }
  { intros k Hk. apply (m3_ci _ _ _ _ _ Hm1), Hroom. lia. }
  assert (Hown2 : forall a i v, EWr (a, i) v ∈ ev_copy aTc (mp (cut t)) aCi (pre (cut t)) (cis (tout t)) -> a = aCi).
  { intros a i v Hin. apply ev_copy_wr, ev_store_elem in Hin. tauto. }
  assert (Hm2 : mem3 rspec n nt cut m2).
  { eapply mem3_solo; [exact Hs2|exact Hm1|]. intros a i v Hin. apply Hown2 in Hin. subst. left. split; discriminate. }
  assert (Hk2 : cut t < cut (t + 1) -> m2 !! (aRp, cut t) = Some (VN (pre (cut t)))).
  { intros Hlt. rewrite (solo_keep _ _ _ _ _ _ Hs2); [apply Hk1, Hlt|]. intros v Hin. apply Hown2 in Hin. discriminate. }
  assert (Hk2' : forall i, m2 !! (aTv, i) = m !! (aTv, i)).
  { intros i. rewrite (solo_keep _ _ _ _ _ _ Hs2); [apply Hk1'; unfold aTv; lia|]. intros v Hin. apply Hown2 in Hin. discriminate. }
  destruct (copyShared_solo aTv (mp (cut t)) aVa (pre (cut t)) (vas (tout t)) m2) as (m3 & Hs3).
  { intros k v Hk. unfold vas in Hk. rewrite list_lookup_fmap in Hk. destruct (tout t !! k) as [x|] eqn:Ex; [|discriminate]. injection Hk as <-.
    split; [|discriminate]. rewrite Hk2'. apply (Htmp t k x Ht Ex). }
  { discriminate. }
  { intros k Hk. apply (m3_va _ _ _ _ _ Hm2), Hroom. lia. }
  exists m3. unfold outputI1p. eapply solo_lift; [unfold fresh_dims; rewrite HE; reflexivity|]. cbn beta iota. unfold stateI at 1 2 3 4 5 6. cbn [ti_rb ti_re ti_base].
  unfold ev3I. eapply solo_bind; [exact Hs1|].
  eapply solo_bind; [apply solo_rdN, (m3_tn _ _ _ _ _ Hm1), Ht|].
  assert (Hcp : forall src from dst (v : val V), (cut t < cut (t + 1) -> v = VN (pre (cut t))) ->
    copyShared src from dst v (tnv t) = copyShared src from dst (VN (pre (cut t))) (tnv t)).
  { intros src from dst v Hv. destruct (decide (cut t < cut (t + 1))) as [Hlt|Hge]; [rewrite (Hv Hlt); reflexivity|].
    rewrite (tout_nil rspec n nt cut Hnt Hcut0 Hcutn Hcutm t Ht Hge) in L. simpl in L. rewrite <- L. reflexivity. }
  apply (solo_pos rspec n nt cut Hnt Hcut0 Hcutn Hcutm m1); [exact Ht|exact Hm1|exact Hk1|]. intros v Hv. rewrite (Hcp _ _ aCi v Hv), <- LC.
  eapply solo_bind; [exact Hs2|].
  apply (solo_pos rspec n nt cut Hnt Hcut0 Hcutn Hcutm m2); [exact Ht|exact Hm2|exact Hk2|]. intros w Hw. rewrite LC, (Hcp _ _ aVa w Hw), <- LV.
  rewrite <- (app_nil_r (ev_copy aTv _ _ _ _)). eapply solo_bind; [exact Hs3|constructor].
Qed.

Lemma ev3I_own t l v : t < nt -> EWr l v ∈ ev3I t -> own3 rspec n nt cut t l /\ wvf rspec n cut l = Some v.
Proof.
  intros Ht. destruct l as [a i]. unfold ev3I. rewrite !elem_of_app, !elem_of_cons, !elem_of_app, !elem_of_cons.
  assert (L : length (tout t) = tnv t) by (apply (tout_length rspec nt cut Hcutm); exact Ht).
  assert (Hp : EWr (a, i) v <> ev_pos cut t) by (unfold ev_pos; destruct (_ <? _); discriminate).
  intros [Hin|[[Hin|Hin]|[Hin|[Hin|[Hin|Hin]]]]]; try discriminate; try congruence; try (inversion Hin; fail).
  - apply (ev_sro_wr rspec n nt cut Hnt Hcut0 Hcutn Hcutm t _ v Ht Hin).
  - apply ev_copy_wr in Hin. eapply (ev_store_own rspec n nt cut Hnt Hcut0 Hcutn Hcutm aCi t); [auto|exact Ht| | |exact Hin].
    + unfold cis. rewrite fmap_length. exact L.
    + intros k w Hk. apply (wvf_ci rspec n nt cut Hnt Hcut0 Hcutn Hcutm t k w Ht Hk).
  - apply ev_copy_wr in Hin. eapply (ev_store_own rspec n nt cut Hnt Hcut0 Hcutn Hcutm aVa t); [auto|exact Ht| | |exact Hin].
    + unfold vas. rewrite fmap_length. exact L.
    + intros k w Hk. apply (wvf_va rspec n nt cut Hnt Hcut0 Hcutn Hcutm t k w Ht Hk).
Qed.
Lemma own3_tmp t l : fst l = aTc \/ fst l = aTv -> ~ own3 rspec n nt cut t l.
Proof. destruct l as [a i]. simpl. intros [-> | ->] [[? _]|[[? _]|[[?|?] _]]]; discriminate. Qed.
Lemma ev3I_rd t u l : t < nt -> u < nt -> ERd l ∈ ev3I t -> own3 rspec n nt cut u l -> u = t.
Proof.
  intros Ht Hu. unfold ev3I. rewrite !elem_of_app, !elem_of_cons, !elem_of_app, !elem_of_cons.
  intros [Hin|[[Hin|Hin]|[Hin|[Hin|[Hin|Hin]]]]] Ho; try (inversion Hin; fail).
  - apply (ev_sro_rd rspec n nt cut Hnt Hcut0 Hcutn Hcutm t u l Ht Hu Hin Ho).
  - injection Hin as ->. exfalso. destruct Ho as [[H _]|[[H _]|[[H|H] _]]]; discriminate.
  - apply (ev_pos_rd rspec n nt cut Hnt Hcut0 Hcutn Hcutm t u l Ht Hu Hin Ho).
  - apply ev_copy_rd in Hin. exfalso. eapply own3_tmp; eauto.
  - apply (ev_pos_rd rspec n nt cut Hnt Hcut0 Hcutn Hcutm t u l Ht Hu Hin Ho).
  - apply ev_copy_rd in Hin. exfalso. eapply own3_tmp; eauto.
Qed.
Lemma own3_anyI t u l : (forall t, t + 1 < nt -> cut t < cut (t + 1)) -> t < nt -> u < nt -> EAny l = ev_pos (V := V) cut t -> own3 rspec n nt cut u l -> u = t.
Proof. intros Hne Ht Hu. unfold ev_pos. destruct (Nat.ltb_spec (cut t) (cut (t + 1))) as [|Hge]; [discriminate|]. intros E. injection E as ->.
  destruct (decide (t + 1 < nt)) as [Hlt|Hl]; [specialize (Hne t Hlt); lia|]. assert (t = nt - 1) by lia.
  assert (Hn : cut t = n).
  { pose proof (Hcutm t Ht). replace (t + 1) with nt in * by lia. lia. }
  intros [[H' _]|[[_ [Hr|[_ Hr]]]|[[H'|H'] _]]]; try discriminate; [|congruence].
  assert (cut (u + 1) <= n); [|lia]. rewrite <- Hcutn. apply (cut_le cut nt); [exact Hcutm|lia].
Qed.
Lemma ev3I_any t u l : (forall t, t + 1 < nt -> cut t < cut (t + 1)) -> t < nt -> u < nt -> EAny l ∈ ev3I t -> own3 rspec n nt cut u l -> u = t.
Proof.
  intros Hne Ht Hu. unfold ev3I. rewrite !elem_of_app, !elem_of_cons, !elem_of_app, !elem_of_cons.
  intros [Hin|[[Hin|Hin]|[Hin|[Hin|[Hin|Hin]]]]] Ho; try (inversion Hin; fail); try (exfalso; eapply ev_copy_any, Hin).
  - exfalso. apply (ev_sro_any rspec n nt cut t l Hin).
  - apply (own3_anyI t u l); assumption.
  - apply (own3_anyI t u l); assumption.
Qed.

Lemma out_cellsI (m' : mem) (evs : nat -> list ev) :
  (forall t l v, t < nt -> EWr l v ∈ evs t -> m' !! l = Some v) ->
  (forall t x, t < nt -> x ∈ ev_sro rspec n nt cut t -> x ∈ evs t) ->
  (forall t a i v, t < nt -> EWr (a, i) v ∈ ev_store aCi (pre (cut t)) (cis (tout t)) -> EWr (a, i) v ∈ evs t) ->
  (forall t a i v, t < nt -> EWr (a, i) v ∈ ev_store aVa (pre (cut t)) (vas (tout t)) -> EWr (a, i) v ∈ evs t) ->
  forall (e : gmap nat (obj V)) iC nc, e !! iC = Some (OFresh n nc (pre n)) -> outMatrix e m' iC = Some (assemble rspec n nc).
Proof.
  intros Hm H1 H2 H3 e iC nc He. apply (outMatrix_ok rspec n nt cut Hnt Hcut0 Hcutn Hcutm); [exact He| |].
  - intros j Hj. destruct (rp_written rspec n nt cut Hnt Hcut0 Hcutn Hcutm j Hj) as (t & Ht & Hin). apply (Hm t); auto.
  - intros p x Hp. destruct (out_written rspec n nt cut Hnt Hcut0 Hcutn Hcutm p x Hp) as (t & Ht & Hc & Hv).
    split; apply (Hm t); auto.
Qed.

Lemma phase3_I1p iC nc e m : e !! iC = Some (OFresh n nc (pre n)) -> mem3 rspec n nt cut m -> tmp_ok m ->
  (exists m', always (m, imap (outputI1p iC nt e) (stateI <$> seq 0 nt)) m' (stateI <$> seq 0 nt) /\
     outMatrix e m' iC = Some (assemble rspec n nc)) /\
  ((forall t, t + 1 < nt -> cut t < cut (t + 1)) -> race_free (m, imap (outputI1p iC nt e) (stateI <$> seq 0 nt))).
Proof.
  intros He Hm Htmp. assert (Hl : length (stateI <$> seq 0 nt) = nt) by (rewrite fmap_length, seq_length; reflexivity).
  assert (Hs : forall t s, t < nt -> (stateI <$> seq 0 nt) !! t = Some s -> exists mf, solo m (outputI1p iC nt e t s) (ev3I t) (stateI t) mf).
  { intros t s Ht Hls. rewrite list_lookup_fmap, lookup_seq_lt in Hls by exact Ht. injection Hls as <-. eapply outputI1p_solo; eauto. }
  split.
  - destruct (owned_phase nt (stateI <$> seq 0 nt) (outputI1p iC nt) e m ev3I stateI (own3 rspec n nt cut) (wvf rspec n cut) Hl Hs)
      as (m' & H1 & H2 & H3).
    + intros t l v Ht Hin. apply ev3I_own; assumption.
    + intros t u l. apply ev3I_rd.
    + intros t u l. apply (own3_excl rspec n nt cut Hnt Hcut0 Hcutn Hcutm).
    + exists m'. split; [exact H1|]. apply (out_cellsI m' ev3I H2); [| | |exact He].
      * intros t x Ht Hx. unfold ev3I. apply elem_of_app. left. exact Hx.
      * intros t a i v Ht Hx. unfold ev3I. rewrite !elem_of_app, !elem_of_cons, !elem_of_app, !elem_of_cons. right. right. right. left.
        apply ev_copy_wr. exact Hx.
      * intros t a i v Ht Hx. unfold ev3I. rewrite !elem_of_app, !elem_of_cons, !elem_of_app, !elem_of_cons. do 5 right.
        apply ev_copy_wr. exact Hx.
  - intros Hne. apply (owned_race_free nt (stateI <$> seq 0 nt) (outputI1p iC nt) e m ev3I stateI (own3 rspec n nt cut) Hl Hs).
    + intros t l v Ht Hin. apply (ev3I_own t l v Ht Hin).
    + intros t u l. apply ev3I_rd.
    + intros t u l. apply ev3I_any, Hne.
    + intros t u l. apply (own3_excl rspec n nt cut Hnt Hcut0 Hcutn Hcutm).
Qed.

(** ** Two phases: symbolic part *)
Definition evS_row (i : nat) : list ev :=
  EWr (aNv, i) (VN (length (rspec i))) :: if workOf A B M i =? 0 then [] else [ERd (aNv, i)].
Definition evS (t : nat) : list ev :=
  mjoin (evS_row <$> seq (cut t) (cut (t + 1) - cut t)) ++ [EWr (aTn, t) (VN (tnv t))].
Definition state2I (t : nat) : ti := mkTi (cut t) (cut (t + 1)) 0.

Lemma symbolicI2p_solo iA iB iM e t : deref e iA = Ok A -> deref_csc e iB = Ok B -> deref e iM = Ok M -> t < nt ->
  exists m', solo (startMem n nt) (symbolicI2p iA iB iM nt work cum wtotal e t) (evS t) (state2I t) m'.
Proof.
  intros HA HB HM Ht. pose proof (cut_rangeI t Ht) as Hr.
  set (Inv := fun i (s : nat) (m : mem) =>
    s = pre i - pre (cut t) /\ forall l, is_Some (startMem (V := V) n nt !! l) -> is_Some (m !! l)).
  assert (Hloop : exists s' m', solo (startMem n nt) (pfor_n (cut (t + 1) - cut t) (cut t) (srowI2p work A B M) 0)
      (mjoin (evS_row <$> seq (cut t) (cut (t + 1) - cut t))) s' m' /\ Inv (cut t + (cut (t + 1) - cut t)) s' m').
  { apply solo_pfor_n.
    - intros i nv m Hi (-> & Hd). assert (Hin : i < n) by lia. unfold srowI2p, evS_row.
      assert (Hdom : is_Some (m !! (aNv, i))) by (apply Hd, (startMem_nv rspec n nt cut Hnt Hcut0 Hcutn Hcutm i Hin)).
      pose proof (pre_le rspec (cut t) i ltac:(lia)) as Hple.
      exists (pre (S i) - pre (cut t)), (<[(aNv, i) := VN (length (rspec i))]> m). split.
      + eapply solo_lift; [apply work_get, Hin|]. destruct (Nat.eqb_spec (workOf A B M i) 0) as [Hz|Hnz].
        * rewrite pre_S, (Hzero i Hin Hz). rewrite Nat.add_0_r. apply solo_wr; [exact Hdom|constructor].
        * eapply solo_lift; [apply Hsym, Hin|]. apply solo_wr; [exact Hdom|].
          change [ERd (aNv, i)] with ([ERd (aNv, i)] ++ @nil ev). eapply solo_bind; [apply solo_rdN, lookup_insert|]. rewrite pre_S.
          replace (pre i - pre (cut t) + length (rspec i)) with (pre i + length (rspec i) - pre (cut t)) by lia. constructor.
      + split; [reflexivity|]. intros l Hl.
        destruct (decide (l = (aNv, i))) as [->|Hne]; [rewrite lookup_insert; eauto|rewrite lookup_insert_ne by congruence; auto].
    - split; [lia|auto]. }
  destruct Hloop as (s' & m' & Hs & -> & Hd).
  replace (cut t + (cut (t + 1) - cut t)) with (cut (t + 1)) in * by lia.
  exists (<[(aTn, t) := VN (tnv t)]> m'). unfold symbolicI2p.
  eapply solo_lift; [exact HA|]. eapply solo_lift; [exact HB|]. eapply solo_lift; [exact HM|].
  eapply solo_lift; [apply Hdist, Ht|]. cbn beta iota. unfold evS. eapply solo_bind; [exact Hs|].
  apply solo_wr; [apply Hd, (startMem_tn rspec n nt cut Hnt Hcut0 Hcutn Hcutm t Ht)|]. constructor.
Qed.

Lemma evS_own t l v : EWr l v ∈ evS t -> own1 cut t l /\ wvf rspec n cut l = Some v.
Proof.
  unfold evS, evS_row. rewrite elem_of_app, elem_of_events. intros [(i & Hi & Hin)|Hin].
  - apply elem_of_cons in Hin as [Hin|Hin]; [|destruct (_ =? _); [inversion Hin|apply elem_of_list_singleton in Hin; discriminate]].
    injection Hin as -> ->. split; [|reflexivity]. left. split; [reflexivity|lia].
  - apply elem_of_list_singleton in Hin; injection Hin as -> ->. split; [|reflexivity]. right. auto.
Qed.
Lemma evS_rd t u l : t < nt -> u < nt -> ERd l ∈ evS t -> own1 cut u l -> u = t.
Proof.
  intros Ht Hu. unfold evS, evS_row. rewrite elem_of_app, elem_of_events. intros [(i & Hi & Hin)|Hin]; [|apply elem_of_list_singleton in Hin; discriminate].
  apply elem_of_cons in Hin as [Hin|Hin]; [discriminate|]. destruct (_ =? _); [inversion Hin|]. apply elem_of_list_singleton in Hin. injection Hin as ->.
  intros [[_ H]|[H _]]; [|discriminate]. eapply (cut_disj rspec n nt cut Hnt Hcut0 Hcutn Hcutm); eauto. lia.
Qed.
Lemma evS_any t l : EAny l ∉ evS t.
Proof.
  unfold evS, evS_row. rewrite elem_of_app, elem_of_events. intros [(i & Hi & Hin)|Hin]; [|apply elem_of_list_singleton in Hin; discriminate].
  apply elem_of_cons in Hin as [Hin|Hin]; [discriminate|]. destruct (_ =? _); [inversion Hin|]. apply elem_of_list_singleton in Hin. discriminate.
Qed.

Lemma phase1_I2p iA iB iM e ss : deref e iA = Ok A -> deref_csc e iB = Ok B -> deref e iM = Ok M -> length ss = nt ->
  (exists m1, always (startMem n nt, imap (fun t (_ : ti) => symbolicI2p iA iB iM nt work cum wtotal e t) ss) m1 (state2I <$> seq 0 nt) /\
    (forall i, i < n -> m1 !! (aNv, i) = Some (VN (length (rspec i)))) /\ (forall t, t < nt -> m1 !! (aTn, t) = Some (VN (tnv t)))) /\
  race_free (startMem n nt, imap (fun t (_ : ti) => symbolicI2p iA iB iM nt work cum wtotal e t) ss).
Proof.
  intros HA HB HM Hl. split.
  - destruct (owned_phase nt ss (fun e t (_ : ti) => symbolicI2p iA iB iM nt work cum wtotal e t) e (startMem n nt) evS state2I (own1 cut) (wvf rspec n cut) Hl)
      as (m1 & H1 & H2 & H3).
    + intros t s Ht _. apply symbolicI2p_solo; assumption.
    + intros t l v Ht Hin. apply evS_own, Hin.
    + intros t u l. apply evS_rd.
    + intros t u l. apply (own1_excl rspec n nt cut Hnt Hcut0 Hcutn Hcutm).
    + exists m1. split; [exact H1|]. split.
      * intros i Hi. destruct (cut_cover cut nt i Hcut0 ltac:(lia)) as (t & Ht & Hc). apply (H2 t _ _ Ht).
        unfold evS, evS_row. rewrite elem_of_app, elem_of_events. left. exists i. split; [lia|]. left.
      * intros t Ht. apply (H2 t _ _ Ht). unfold evS. apply elem_of_app. right. left.
  - apply (owned_race_free nt ss (fun e t (_ : ti) => symbolicI2p iA iB iM nt work cum wtotal e t) e (startMem n nt) evS state2I (own1 cut) Hl).
    + intros t s Ht _. apply symbolicI2p_solo; assumption.
    + intros t l v Ht Hin. apply (evS_own t l v Hin).
    + intros t u l. apply evS_rd.
    + intros t u l _ _ Hin. exfalso. apply (evS_any t l Hin).
    + intros t u l. apply (own1_excl rspec n nt cut Hnt Hcut0 Hcutn Hcutm).
Qed.

(** ** Two phases: numeric part *)
Definition evrowI (i : nat) : list ev :=
  ev_store aCi (pre i) (cis (rspec i)) ++ ev_store aVa (pre i) (vas (rspec i)) ++ [EWr (aNv, i) (VN (length (rspec i)))].
Definition evnI (t : nat) : list ev :=
  ev_sro rspec n nt cut t ++ (ev_pos cut t :: ev_pos cut t :: mjoin (evrowI <$> seq (cut t) (cut (t + 1) - cut t))).

Lemma storeRow_solo m0 i t : t < nt -> cut t <= i < cut (t + 1) -> mem3 rspec n nt cut m0 ->
  exists mr, solo m0 (storeRow (VN (pre (cut t))) (VN (pre (cut t))) (pre i - pre (cut t)) (rspec i))
    (ev_store aCi (pre i) (cis (rspec i)) ++ ev_store aVa (pre i) (vas (rspec i))) tt mr /\ mem3 rspec n nt cut mr.
Proof.
  intros Ht Hi Hm0. pose proof (cut_rangeI t Ht) as Hr.
  pose proof (pre_le rspec (cut t) i ltac:(lia)) as Hp1.
  pose proof (pre_le rspec (S i) n ltac:(lia)) as Hp2. rewrite pre_S in Hp2.
  destruct (storeAt_solo aCi (cis (rspec i)) (pre i) m0) as [mc Hc].
  { intros k Hk. unfold cis in Hk. rewrite fmap_length in Hk. apply (m3_ci _ _ _ _ _ Hm0). lia. }
  destruct (storeAt_solo aVa (vas (rspec i)) (pre i) mc) as [mv Hv].
  { intros k Hk. unfold vas in Hk. rewrite fmap_length in Hk. apply (solo_dom _ _ _ _ _ _ Hc), (m3_va _ _ _ _ _ Hm0). lia. }
  assert (Hs : solo m0 (pbind (storeAt aCi (pre i) (cis (rspec i))) (fun _ => storeAt aVa (pre i) (vas (rspec i))))
          (ev_store aCi (pre i) (cis (rspec i)) ++ ev_store aVa (pre i) (vas (rspec i))) tt mv) by (eapply solo_bind; eauto).
  exists mv. split.
  - unfold storeRow. destruct (rspec i) as [|x l] eqn:El; [exact Hs|].
    replace (pre (cut t) + (pre i - pre (cut t))) with (pre i) by lia. exact Hs.
  - eapply mem3_solo; [exact Hs|exact Hm0|]. intros x j v Hin'. left. apply elem_of_app in Hin' as [Hin'|Hin'];
      apply ev_store_elem in Hin' as [-> _]; split; discriminate.
Qed.

Lemma numericI2p_solo iA iB iM iC nc e m t : e !! iC = Some (OFresh n nc (pre n)) ->
  (forall i, i < n -> workOf A B M i <> 0 -> deref e iA = Ok A /\ deref_csc e iB = Ok B /\ deref e iM = Ok M) ->
  mem3 rspec n nt cut m -> t < nt ->
  exists m', solo m (numericI2p mul add iA iB iM iC nt work e t (state2I t)) (evnI t) (state2I t) m'.
Proof.
  intros HE HD Hm Ht. pose proof (cut_rangeI t Ht) as Hr.
  destruct (setRowOffsets_solo rspec n nt cut Hnt Hcut0 Hcutn Hcutm m t Ht Hm) as (m1 & Hs1 & Hm1 & Hk1).
  set (vp := VN (pre (cut t)) : val V).
  set (Inv := fun i (s : list (nat * V)) (m : mem) => s = rowsOf rspec (cut t) i /\ mem3 rspec n nt cut m).
  assert (Hloop : exists s' m', solo m1 (pfor_n (cut (t + 1) - cut t) (cut t) (nrowI2p mul add iA iB iM work e (pre n) vp vp) [])
      (mjoin (evrowI <$> seq (cut t) (cut (t + 1) - cut t))) s' m' /\ Inv (cut t + (cut (t + 1) - cut t)) s' m').
  { apply solo_pfor_n.
    - intros i dn m0 Hi (-> & Hm0). assert (Hin : i < n) by lia.
      pose proof (pre_le rspec (cut t) i ltac:(lia)) as Hp1.
      pose proof (pre_le rspec (S i) n ltac:(lia)) as Hp2. rewrite pre_S in Hp2.
      assert (Lr : length (rowsOf rspec (cut t) i) = pre i - pre (cut t)) by (apply rowsOf_length; lia).
      destruct (storeRow_solo m0 i t Ht ltac:(lia) Hm0) as (mr & Hst & Hmr).
      exists (rowsOf rspec (cut t) (S i)), (<[(aNv, i) := VN (length (rspec i))]> mr).
      assert (Hwr : solo mr (Wr (aNv, i) (VN (length (rspec i))) (Ret (rowsOf rspec (cut t) (S i)))) [EWr (aNv, i) (VN (length (rspec i)))]
        (rowsOf rspec (cut t) (S i)) (<[(aNv, i) := VN (length (rspec i))]> mr)).
      { apply solo_wr; [rewrite (m3_nv _ _ _ _ _ Hmr) by exact Hin; eauto|constructor]. }
      split.
      + unfold nrowI2p, evrowI. eapply solo_lift; [apply work_get, Hin|].
        destruct (Nat.eqb_spec (workOf A B M i) 0) as [Hz|Hnz].
        * pose proof (Hzero i Hin Hz) as Hnil. rewrite Hnil in *. unfold cis, vas in *. simpl in Hst. inversion Hst; subst.
          rewrite rowsOf_S, Hnil, app_nil_r in Hwr |- * by lia. exact Hwr.
        * destruct (HD i Hin Hnz) as (HA & HB & HM).
          eapply solo_lift; [exact HA|]. eapply solo_lift; [exact HB|]. eapply solo_lift; [exact HM|].
          unfold vp at 1. eapply solo_lift; [apply Hnum; [exact Hin|rewrite Lr; lia]|]. cbn [o_done].
          rewrite drop_app_alt by reflexivity. rewrite Lr, app_assoc. eapply solo_bind; [exact Hst|].
          rewrite app_length, Lr. replace (pre i - pre (cut t) + length (rspec i) - (pre i - pre (cut t))) with (length (rspec i)) by lia.
          rewrite <- rowsOf_S by lia. exact Hwr.
      + split; [reflexivity|]. eapply mem3_solo; [exact Hwr|exact Hmr|]. intros a j v Hin'. apply elem_of_list_singleton in Hin'.
        injection Hin' as -> -> ->. right. reflexivity.
    - split; [rewrite rowsOf_nil by lia; reflexivity|exact Hm1]. }
  destruct Hloop as (s' & m' & Hs & _).
  exists m'. unfold numericI2p. eapply solo_lift; [unfold fresh_dims; rewrite HE; reflexivity|]. cbn beta iota. unfold state2I at 1 2 3 4 5 6.
  cbn [ti_rb ti_re]. unfold evnI. eapply solo_bind; [exact Hs1|].
  apply (solo_pos rspec n nt cut Hnt Hcut0 Hcutn Hcutm m1); [exact Ht|exact Hm1|exact Hk1|]. intros v Hv.
  apply (solo_pos rspec n nt cut Hnt Hcut0 Hcutn Hcutm m1); [exact Ht|exact Hm1|exact Hk1|]. intros w Hw.
  rewrite <- (app_nil_r (mjoin _)). eapply solo_bind; [|constructor].
  unfold pfor. destruct (decide (cut t < cut (t + 1))) as [Hlt|Hge].
  - rewrite (Hv Hlt), (Hw Hlt). exact Hs.
  - replace (cut (t + 1) - cut t) with 0 in * by lia. simpl in *. inversion Hs; subst. constructor.
Qed.

Lemma evrowI_own t i l v : t < nt -> cut t <= i < cut (t + 1) -> EWr l v ∈ evrowI i -> own3 rspec n nt cut t l /\ wvf rspec n cut l = Some v.
Proof.
  intros Ht Hi. destruct l as [a p]. unfold evrowI. rewrite !elem_of_app. pose proof (cut_rangeI t Ht) as Hr.
  pose proof (pre_le rspec (cut t) i ltac:(lia)) as Hp1. pose proof (pre_le rspec (S i) (cut (t + 1)) ltac:(lia)) as Hp2. rewrite pre_S in Hp2.
  assert (Hl : forall k x, rspec i !! k = Some x -> rowsOf rspec 0 n !! (pre i + k) = Some x).
  { intros k x Hk. pose proof (lookup_lt_Some _ _ _ Hk) as Hlt.
    rewrite (rowsOf_lookup rspec i (S i) n) by (rewrite ?pre_S; lia). replace (pre i + k - pre i) with k by lia.
    rewrite rowsOf_S, rowsOf_nil by lia. exact Hk. }
  intros [Hin|[Hin|Hin]].
  3: { apply elem_of_list_singleton in Hin. injection Hin as -> -> ->. split; [left; split; [reflexivity|lia]|reflexivity]. }
  1,2: apply ev_store_elem in Hin as (-> & Hle & Hlk); unfold cis, vas in Hlk;
    rewrite list_lookup_fmap in Hlk; destruct (rspec i !! (p - pre i)) as [x|] eqn:Ex; try discriminate; injection Hlk as <-;
    pose proof (lookup_lt_Some _ _ _ Ex) as Hlt; apply Hl in Ex; replace (pre i + (p - pre i)) with p in Ex by lia;
    (split; [right; right; split; [auto|lia]|]); unfold wvf; simpl; rewrite Ex; reflexivity.
Qed.
Lemma evnI_own t l v : t < nt -> EWr l v ∈ evnI t -> own3 rspec n nt cut t l /\ wvf rspec n cut l = Some v.
Proof.
  intros Ht. unfold evnI. rewrite elem_of_app, !elem_of_cons, elem_of_events.
  assert (Hp : EWr l v <> ev_pos cut t) by (unfold ev_pos; destruct (_ <? _); discriminate).
  intros [Hin|[Hin|[Hin|(i & Hi & Hin)]]]; try congruence.
  - apply (ev_sro_wr rspec n nt cut Hnt Hcut0 Hcutn Hcutm t l v Ht Hin).
  - apply (evrowI_own t i l v Ht ltac:(lia) Hin).
Qed.
Lemma evrowI_wr i x : x ∈ evrowI i -> exists l v, x = EWr l v.
Proof.
  unfold evrowI. rewrite !elem_of_app. destruct x as [l|l|l v]; [| |eauto]; intros [Hin|[Hin|Hin]]; exfalso;
    try (apply elem_of_list_singleton in Hin; discriminate); try (eapply ev_store_rd, Hin); try (eapply ev_store_any, Hin).
Qed.
Lemma evnI_rd t u l : t < nt -> u < nt -> ERd l ∈ evnI t -> own3 rspec n nt cut u l -> u = t.
Proof.
  intros Ht Hu. unfold evnI. rewrite elem_of_app, !elem_of_cons, elem_of_events.
  intros [Hin|[Hin|[Hin|(i & Hi & Hin)]]] Ho.
  - apply (ev_sro_rd rspec n nt cut Hnt Hcut0 Hcutn Hcutm t u l Ht Hu Hin Ho).
  - apply (ev_pos_rd rspec n nt cut Hnt Hcut0 Hcutn Hcutm t u l Ht Hu Hin Ho).
  - apply (ev_pos_rd rspec n nt cut Hnt Hcut0 Hcutn Hcutm t u l Ht Hu Hin Ho).
  - apply evrowI_wr in Hin as (? & ? & ?). discriminate.
Qed.
Lemma evnI_any t u l : (forall t, t + 1 < nt -> cut t < cut (t + 1)) -> t < nt -> u < nt -> EAny l ∈ evnI t -> own3 rspec n nt cut u l -> u = t.
Proof.
  intros Hne Ht Hu. unfold evnI. rewrite elem_of_app, !elem_of_cons, elem_of_events.
  intros [Hin|[Hin|[Hin|(i & Hi & Hin)]]] Ho.
  - exfalso. apply (ev_sro_any rspec n nt cut t l Hin).
  - apply (own3_anyI t u l); assumption.
  - apply (own3_anyI t u l); assumption.
  - apply evrowI_wr in Hin as (? & ? & ?). discriminate.
Qed.
Lemma evnI_store a (f : list (nat * V) -> list (val V)) t b p v : t < nt -> (a = aCi /\ f = cis) \/ (a = aVa /\ f = vas) ->
  EWr (b, p) v ∈ ev_store a (pre (cut t)) (f (tout t)) -> EWr (b, p) v ∈ evnI t.
Proof.
  intros Ht Hf Hin. apply ev_store_elem in Hin as (-> & Hle & Hlk).
  assert (exists y, tout t !! (p - pre (cut t)) = Some y) as [y Hy].
  { destruct Hf as [[-> ->]|[-> ->]]; unfold cis, vas in Hlk; rewrite list_lookup_fmap in Hlk;
      destruct (tout t !! (p - pre (cut t))); try discriminate; eauto. }
  destruct (tout_row t _ y Ht Hy) as (i & Hi & Hp & Hr). replace (pre (cut t) + (p - pre (cut t)) - pre i) with (p - pre i) in Hr by lia.
  unfold evnI, evrowI. rewrite elem_of_app, !elem_of_cons, elem_of_events. right. right. right. exists i. split; [lia|].
  rewrite !elem_of_app.
  destruct Hf as [[-> ->]|[-> ->]]; [left|right; left]; apply ev_store_elem; (split; [reflexivity|]); (split; [lia|]);
    unfold cis, vas in *; rewrite list_lookup_fmap in *; rewrite Hr; rewrite Hy in Hlk; exact Hlk.
Qed.

Lemma phase3_I2p iA iB iM iC nc e m : e !! iC = Some (OFresh n nc (pre n)) ->
  (forall i, i < n -> workOf A B M i <> 0 -> deref e iA = Ok A /\ deref_csc e iB = Ok B /\ deref e iM = Ok M) ->
  mem3 rspec n nt cut m ->
  (exists m', always (m, imap (numericI2p mul add iA iB iM iC nt work e) (state2I <$> seq 0 nt)) m' (state2I <$> seq 0 nt) /\
     outMatrix e m' iC = Some (assemble rspec n nc)) /\
  ((forall t, t + 1 < nt -> cut t < cut (t + 1)) -> race_free (m, imap (numericI2p mul add iA iB iM iC nt work e) (state2I <$> seq 0 nt))).
Proof.
  intros He HD Hm. assert (Hl : length (state2I <$> seq 0 nt) = nt) by (rewrite fmap_length, seq_length; reflexivity).
  assert (Hs : forall t s, t < nt -> (state2I <$> seq 0 nt) !! t = Some s -> exists mf, solo m (numericI2p mul add iA iB iM iC nt work e t s) (evnI t) (state2I t) mf).
  { intros t s Ht Hls. rewrite list_lookup_fmap, lookup_seq_lt in Hls by exact Ht. injection Hls as <-. eapply numericI2p_solo; eauto. }
  split.
  - destruct (owned_phase nt (state2I <$> seq 0 nt) (numericI2p mul add iA iB iM iC nt work) e m evnI state2I (own3 rspec n nt cut) (wvf rspec n cut) Hl Hs)
      as (m' & H1 & H2 & H3).
    + intros t l v Ht Hin. apply evnI_own; assumption.
    + intros t u l. apply evnI_rd.
    + intros t u l. apply (own3_excl rspec n nt cut Hnt Hcut0 Hcutn Hcutm).
    + exists m'. split; [exact H1|]. apply (out_cellsI m' evnI H2); [| | |exact He].
      * intros t x Ht Hx. unfold evnI. apply elem_of_app. left. exact Hx.
      * intros t a i v Ht Hx. apply (evnI_store aCi cis t a i v Ht ltac:(auto) Hx).
      * intros t a i v Ht Hx. apply (evnI_store aVa vas t a i v Ht ltac:(auto) Hx).
  - intros Hne. apply (owned_race_free nt (state2I <$> seq 0 nt) (numericI2p mul add iA iB iM iC nt work) e m evnI state2I (own3 rspec n nt cut) Hl Hs).
    + intros t l v Ht Hin. apply (evnI_own t l v Ht Hin).
    + intros t u l. apply evnI_rd.
    + intros t u l. apply evnI_any, Hne.
    + intros t u l. apply (own3_excl rspec n nt cut Hnt Hcut0 Hcutn Hcutm).
Qed.
End Cut.

Lemma verifyI_ok : verifyInputsI A B M = Ok tt.
Proof. unfold verifyInputsI. rewrite Hinner, HMr, HMc, !Nat.eqb_refl. reflexivity. Qed.
Lemma deref_cscm (e : gmap nat (obj V)) i X : e !! i = Some (OCsc X) -> deref_csc e i = Ok X.
Proof. unfold deref_csc. intros ->. reflexivity. Qed.
Lemma colsOf_csc (e : gmap nat (obj V)) i X : e !! i = Some (OCsc X) -> colsOf e i = Ok (c_cols X).
Proof. unfold colsOf. intros ->. reflexivity. Qed.

Theorem inner1p_ok iA iB iM iC (s : gmap nat (obj V)) :
  s !! iA = Some (OMat A) -> s !! iB = Some (OCsc B) -> s !! iM = Some (OMat M) ->
  inner1p_always mul add iA iB iM iC nt s (<[iC := OMat (assemble rspec n (c_cols B))]> s).
Proof.
  intros HA HB HM. exists A, B, M. split; [apply deref_mat; assumption|]. split; [apply deref_cscm; assumption|]. split; [apply deref_mat; assumption|].
  split; [exact verifyI_ok|].
  destruct prepareI_ok as (cum & Lc & Hp). exists work, cum, wtotal. split; [exact Hp|].
  destruct (distribute_ok wtotal cum n nt ltac:(lia) Hnt) as (cut & C0 & Cn & Cm & Hd).
  destruct (phase1_I1p cum cut C0 Cn Cm Hd iA iB iM s (replicate nt (mkTi 0 0 0))) as [(m1 & H1 & Hnv & Htn & Htmp) _];
    [apply deref_mat; assumption|apply deref_cscm; assumption|apply deref_mat; assumption|apply replicate_length|].
  destruct (initC_ok rspec n nt cut Hnt C0 Cn Cm iA iB iC s m1 A (c_cols B) HA (colsOf_csc _ _ _ HB) eq_refl Hnv Htn) as (m2 & Hi & Hm2).
  assert (Htmp2 : tmp_ok cut m2).
  { assert (Hkeep : forall a i, 4 < a -> m2 !! (a, i) = m1 !! (a, i)) by (eapply initC_keep; exact Hi).
    intros t k x Ht Hk. rewrite !Hkeep by (unfold aTc, aTv; lia). apply (Htmp t k x Ht Hk). }
  set (e := <[iC := OFresh n (c_cols B) (pre n)]> s).
  destruct (phase3_I1p cum cut C0 Cn Cm Hd iC (c_cols B) e m2) as [(m3 & H3 & Ho) _]; [apply lookup_insert|exact Hm2|exact Htmp2|].
  exists e, m3, (stateI cut <$> seq 0 nt). split.
  - unfold regionI1p. rewrite HMr. eapply ra_par; [exact H1|].
    destruct (cons_states A Hrows nt Hnt (stateI cut)) as (s0 & k & Es). rewrite Es. eapply ra_master; [exact Hi|]. rewrite <- Es.
    eapply ra_par; [exact H3|]. constructor.
  - exists (assemble rspec n (c_cols B)). split; [exact Ho|]. unfold e. rewrite insert_insert. reflexivity.
Qed.

(** The inputs are read again after the output has been replaced: the output must not be one of them,
    unless no row has work. *)
Theorem inner2p_ok iA iB iM iC (s : gmap nat (obj V)) :
  s !! iA = Some (OMat A) -> s !! iB = Some (OCsc B) -> s !! iM = Some (OMat M) ->
  (iC <> iA /\ iC <> iB /\ iC <> iM) \/ (forall i, i < n -> workOf A B M i = 0) ->
  inner2p_always mul add iA iB iM iC nt s (<[iC := OMat (assemble rspec n (c_cols B))]> s).
Proof.
  intros HA HB HM HN. exists A, B, M. split; [apply deref_mat; assumption|]. split; [apply deref_cscm; assumption|]. split; [apply deref_mat; assumption|].
  split; [exact verifyI_ok|].
  destruct prepareI_ok as (cum & Lc & Hp). exists work, cum, wtotal. split; [exact Hp|].
  destruct (distribute_ok wtotal cum n nt ltac:(lia) Hnt) as (cut & C0 & Cn & Cm & Hd).
  destruct (phase1_I2p cum cut C0 Cn Cm Hd iA iB iM s (replicate nt (mkTi 0 0 0))) as [(m1 & H1 & Hnv & Htn) _];
    [apply deref_mat; assumption|apply deref_cscm; assumption|apply deref_mat; assumption|apply replicate_length|].
  destruct (initC_ok rspec n nt cut Hnt C0 Cn Cm iA iB iC s m1 A (c_cols B) HA (colsOf_csc _ _ _ HB) eq_refl Hnv Htn) as (m2 & Hi & Hm2).
  set (e := <[iC := OFresh n (c_cols B) (pre n)]> s).
  destruct (phase3_I2p cum cut C0 Cn Cm Hd iA iB iM iC (c_cols B) e m2) as [(m3 & H3 & Ho) _]; [apply lookup_insert| |exact Hm2|].
  { intros i Hin Hnz. destruct HN as [(NA & NB & NM)|Hz]; [|exfalso; apply Hnz, Hz, Hin].
    unfold e. split; [|split]; [apply deref_mat|apply deref_cscm|apply deref_mat]; rewrite lookup_insert_ne by congruence; assumption. }
  exists e, m3, (state2I cut <$> seq 0 nt). split.
  - unfold regionI2p. rewrite HMr. eapply ra_par; [exact H1|].
    destruct (cons_states A Hrows nt Hnt (state2I cut)) as (s0 & k & Es). rewrite Es. eapply ra_master; [exact Hi|]. rewrite <- Es.
    eapply ra_par; [exact H3|]. constructor.
  - exists (assemble rspec n (c_cols B)). split; [exact Ho|]. unfold e. rewrite insert_insert. reflexivity.
Qed.
End Inner.
