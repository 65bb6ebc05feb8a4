(** The second loop of the atomic transpose, and the whole function. *)
From stdpp Require Import numbers.
From Verif Require Import TransModel TransProofs MatSpec MatStatements ConvProofs SortProofs MatProofs ParProofs ConcProofs BaseProofs Assemble DriverBase ScanProofs.
From Verif Require Import Base Spec.

Lemma Forall2_filter {X Y} (R : X -> Y -> Prop) (P : X -> Prop) (Q : Y -> Prop)
    `{forall x, Decision (P x)} `{forall y, Decision (Q y)} l k :
  (forall x y, R x y -> (P x <-> Q y)) -> Forall2 R l k -> Forall2 R (filter P l) (filter Q k).
Proof.
  intros HPQ. induction 1 as [|x y l k Hxy _ IH]; [constructor|]. rewrite !filter_cons. pose proof (HPQ x y Hxy).
  destruct (decide (P x)), (decide (Q y)); try tauto. constructor; assumption.
Qed.

Lemma in_row {V : Type} (f : nat -> list (nat * V)) n p : p < pre f n -> exists i, i < n /\ pre f i <= p < pre f i + length (f i).
Proof.
  induction n as [|k IH]; [rewrite pre_0; lia|]. intros Hp. rewrite pre_S in Hp.
  destruct (Nat.lt_ge_cases p (pre f k)) as [H|H]; [destruct (IH H) as (i & Hi & ?); exists i; split; [lia|assumption]|exists k; lia].
Qed.
Lemma row_at {V : Type} (f : nat -> list (nat * V)) n i k : i < n -> k < length (f i) -> rowsOf f 0 n !! (pre f i + k) = f i !! k.
Proof.
  intros Hi Hk. rewrite (rowsOf_lookup f i (S i) n) by (rewrite ?pre_S; lia). rewrite rowsOf_S, rowsOf_nil by lia. simpl. f_equal. lia.
Qed.

Section Fill.
Context {V : Type} (A : csr V).
Hypothesis Hw : wf A.
Notation n := (cols A).
Notation ci := (colids A).
Notation P := (pre (row_entries A)).

Lemma triples_at i k c v : i < rows A -> row_entries A i !! k = Some (c, v) ->
  triples A !! (P i + k) = Some (i, c, v) /\ ci !! (P i + k) = Some c /\ values A !! (P i + k) = Some v.
Proof.
  intros Hi Hk. pose proof (lookup_lt_Some _ _ _ Hk) as Hkl. split.
  - set (f := fun i => (fun e : nat * V => (i, e)) <$> row_entries A i).
    assert (Hf : forall j, length (row_entries A j) = length (f j)) by (intros; unfold f; rewrite fmap_length; reflexivity).
    assert (HP : forall q, P q = pre f q) by (induction q as [|q IHq]; [reflexivity|rewrite !pre_S, IHq, Hf; reflexivity]).
    assert (E : triples A = (fun x => (fst x, fst (snd x), snd (snd x))) <$> rowsOf f 0 (rows A)).
    { unfold triples, rowsOf. rewrite Nat.sub_0_r, mjoin_fmap, <- list_fmap_compose. f_equal. apply list_fmap_ext. intros q i' _. simpl.
      unfold f. rewrite <- list_fmap_compose. reflexivity. }
    rewrite E, list_lookup_fmap, HP, (rowsOf_lookup f i (S i) (rows A)) by (rewrite ?pre_S, <- ?Hf; lia).
    rewrite rowsOf_S, rowsOf_nil by lia. simpl. replace (pre f i + k - pre f i) with k by lia. unfold f. rewrite list_lookup_fmap, Hk. reflexivity.
  - assert (H : zip ci (values A) !! (P i + k) = Some (c, v)).
    { destruct (row_ptrs A Hw i Hi) as [H1 H2]. unfold row_entries in Hk at 1. rewrite H1, H2 in Hk.
      rewrite lookup_take, lookup_drop in Hk by lia. exact Hk. }
    apply lookup_zip_with_Some in H as (x & y & E & Hx & Hy). injection E as -> ->. auto.
Qed.

Lemma triples_length : length (triples A) = nnz A.
Proof.
  unfold triples. rewrite mjoin_length, <- (pre_all A Hw), <- list_fmap_compose. unfold pre. f_equal. apply list_fmap_ext.
  intros i x _. simpl. apply fmap_length.
Qed.

Lemma entry_of j : j < nnz A -> exists i k c v, i < rows A /\ j = P i + k /\ row_entries A i !! k = Some (c, v).
Proof.
  intros Hj. rewrite <- (pre_all A Hw) in Hj. destruct (in_row (row_entries A) (rows A) j Hj) as (i & Hi & Hs).
  destruct (lookup_lt_is_Some_2 (row_entries A i) (j - P i)) as [[c v] Hk]; [lia|].
  exists i, (j - P i), c, v. split; [exact Hi|]. split; [lia|exact Hk].
Qed.

Definition itemOf (t : nat * nat * V) : nat * (nat * V) := (snd (fst t), (fst (fst t), snd t)).
Definition isItem (x : nat * nat) (y : nat * (nat * V)) : Prop := itemOf <$> (triples A !! fst x) = Some y.

Section G.
Context (past : list nat) (G : list (nat * nat)) (m : gmap loc nat).
Hypothesis HF : fetched ci n past G m.

Lemma G_lt x : x ∈ G -> fst x < nnz A.
Proof.
  intros Hx. destruct HF as (Hp & _). assert (H : fst x ∈ fst <$> G) by (apply elem_of_list_fmap; eauto). rewrite Hp in H.
  apply elem_of_seq in H. rewrite (wf_colids _ Hw) in H. lia.
Qed.
Lemma items_ex : exists its, Forall2 isItem G its.
Proof.
  assert (H : Forall (fun x => fst x < nnz A) G) by (apply Forall_forall; intros; apply G_lt; assumption).
  clear HF. induction H as [|x l Hx _ IH]; [exists []; constructor|]. destruct IH as [its IH].
  destruct (lookup_lt_is_Some_2 (triples A) (fst x)) as [t Ht]; [rewrite triples_length; exact Hx|].
  exists (itemOf t :: its). constructor; [|exact IH]. unfold isItem. rewrite Ht. reflexivity.
Qed.

Section Its.
Context (its : list (nat * (nat * V))).
Hypothesis HI : Forall2 isItem G its.
Notation B := (bucket its).

Lemma item_col x y : isItem x y -> colOf ci (fst x) = fst y.
Proof.
  unfold isItem. intros H. destruct (triples A !! fst x) as [t|] eqn:E; [|discriminate]. injection H as <-.
  pose proof (lookup_lt_Some _ _ _ E) as Hl. rewrite triples_length in Hl. destruct (entry_of _ Hl) as (i & k & c & v & Hi & Hj & Hk).
  destruct (triples_at i k c v Hi Hk) as (H1 & H2 & _). rewrite Hj in E. unfold colOf. rewrite Hj, H2. rewrite H1 in E. injection E as <-. reflexivity.
Qed.

Lemma bucket_G c : Forall2 isItem (ofCol ci G c) (filter (fun y => fst y = c) its).
Proof. apply Forall2_filter; [|exact HI]. intros x y Hxy. rewrite (item_col x y Hxy). reflexivity. Qed.
Lemma bucket_len c : length (B c) = length (ofCol ci G c).
Proof. unfold bucket. rewrite fmap_length. symmetry. eapply Forall2_length, bucket_G. Qed.

Lemma ofCol_at c k x : ofCol ci G c !! k = Some x -> snd x = k.
Proof.
  intros Hk. destruct HF as (_ & Hi & _). pose proof (Hi c) as E. assert (H : (snd <$> ofCol ci G c) !! k = Some (snd x)) by (rewrite list_lookup_fmap, Hk; reflexivity).
  rewrite E, lookup_seq in H. lia.
Qed.

Lemma G_bucket j d i k c v : (j, d) ∈ G -> i < rows A -> j = P i + k -> row_entries A i !! k = Some (c, v) -> B c !! d = Some (i, v).
Proof.
  intros HG Hi -> Hk. destruct (triples_at i k c v Hi Hk) as (H1 & H2 & _).
  assert (Hin : (P i + k, d) ∈ ofCol ci G c).
  { apply elem_of_list_filter. split; [|exact HG]. unfold colOf. simpl. rewrite H2. reflexivity. }
  apply elem_of_list_lookup in Hin as [q Hq]. pose proof (ofCol_at _ _ _ Hq) as E. simpl in E. subst q.
  destruct (Forall2_lookup_l _ _ _ _ _ (bucket_G c) Hq) as (y & Hy & Hxy). unfold bucket. rewrite list_lookup_fmap, Hy.
  unfold isItem in Hxy. simpl in Hxy. rewrite H1 in Hxy. injection Hxy as <-. reflexivity.
Qed.
Lemma bucket_back c d i v : B c !! d = Some (i, v) -> exists j k, (j, d) ∈ G /\ i < rows A /\ j = P i + k /\ row_entries A i !! k = Some (c, v).
Proof.
  intros Hb. unfold bucket in Hb. rewrite list_lookup_fmap in Hb. destruct (filter _ its !! d) as [y|] eqn:Hy; [|discriminate]. injection Hb as Hb.
  destruct (Forall2_lookup_r _ _ _ _ _ (bucket_G c) Hy) as ([j d'] & Hx & Hxy). pose proof (ofCol_at _ _ _ Hx) as E. simpl in E. subst d'.
  apply elem_of_list_lookup_2, elem_of_list_filter in Hx as [Hc HG]. pose proof (G_lt _ HG) as Hl. simpl in Hl.
  destruct (entry_of j Hl) as (i' & k & c' & v' & Hi & Hj & Hk). destruct (triples_at i' k c' v' Hi Hk) as (H1 & H2 & _).
  unfold isItem in Hxy. simpl in Hxy. rewrite Hj, H1 in Hxy. injection Hxy as <-. unfold colOf in Hc. simpl in Hc. rewrite Hj, H2 in Hc. simpl in Hc. subst c'.
  simpl in Hb. injection Hb as -> ->. exists j, k. auto.
Qed.

Lemma its_keys : Forall (fun x => fst x < n) its.
Proof.
  apply Forall_forall. intros y Hy. apply elem_of_list_lookup in Hy as [q Hq]. destruct (Forall2_lookup_r _ _ _ _ _ HI Hq) as (x & Hx & Hxy).
  rewrite <- (item_col _ _ Hxy). apply (colOf_lt ci n (ci_lt A Hw)). rewrite (wf_colids _ Hw). apply G_lt. eapply elem_of_list_lookup_2, Hx.
Qed.
Lemma G_length : length G = nnz A.
Proof. destruct HF as (Hp & _). rewrite <- (fmap_length fst), Hp, seq_length. apply (wf_colids _ Hw). Qed.
Lemma its_length : length its = nnz A.
Proof. rewrite <- (Forall2_length _ _ _ HI). apply G_length. Qed.
Lemma pre_B : pre B n = nnz A.
Proof. rewrite pre_total by apply its_keys. apply its_length. Qed.

Definition result : csr V := assemble B n (rows A).
Definition resultC : csc V := mkCsc (rows A) n (nnz A) (rowptr result) (colids result) (values result).

Lemma result_tr : csc_tr resultC = result.
Proof. unfold csc_tr, resultC, result, assemble. simpl. rewrite pre_B. reflexivity. Qed.
Lemma result_wf : wf_csc resultC.
Proof.
  unfold wf_csc. rewrite result_tr. apply assemble_wf. intros c i v Hc Hin. apply elem_of_list_lookup in Hin as [d Hd].
  destruct (bucket_back _ _ _ _ Hd) as (j & k & _ & Hi & _). exact Hi.
Qed.
Lemma result_triples : triples_csc resultC ≡ₚ triples A.
Proof.
  assert (E : triples_csc resultC = mjoin ((fun c => (fun e : nat * V => (fst e, c, snd e)) <$> B c) <$> seq 0 n)).
  { unfold triples_csc, col_entries. rewrite result_tr. apply mjoin_fmap_ext. intros c Hc. apply elem_of_seq in Hc. simpl in Hc.
    unfold result. rewrite assemble_row by lia. reflexivity. }
  rewrite E. set (back := fun y : nat * (nat * V) => (fst (snd y), fst y, snd (snd y))).
  transitivity (back <$> its).
  - transitivity (back <$> mjoin ((fun c => filter (fun y => fst y = c) its) <$> seq 0 n)).
    2:{ apply fmap_Permutation. exact (buckets_perm fst its n its_keys). }
    rewrite mjoin_fmap, <- list_fmap_compose. apply mjoin_perm. intros c _. simpl.
    unfold bucket. rewrite <- list_fmap_compose.
    match goal with |- ?a ≡ₚ ?b => assert (Heq : a = b); [|rewrite Heq; reflexivity] end.
    apply list_fmap_ext. intros q y Hy. apply elem_of_list_lookup_2, elem_of_list_filter in Hy as [<- _]. reflexivity.
  - assert (Hb : back <$> its = omap (fun x => triples A !! fst x) G).
    { clear -HI. induction HI as [|x y l k Hxy HI' IH]; [reflexivity|]. rewrite fmap_cons, (IH HI'). cbn [omap list_omap]. unfold isItem in Hxy.
      destruct (triples A !! x.1) as [[[i c] v]|]; [|discriminate]. injection Hxy as <-. reflexivity. }
    rewrite Hb. transitivity (omap (fun j => triples A !! j) (fst <$> G)).
    { match goal with |- ?a ≡ₚ ?b => assert (Heq : a = b); [|rewrite Heq; reflexivity] end.
      clear. induction G as [|x l IH]; [reflexivity|]. rewrite fmap_cons. cbn [omap list_omap]. rewrite IH. reflexivity. }
    destruct HF as (Hp & _). rewrite Hp, (wf_colids _ Hw), <- triples_length.
    match goal with |- ?a ≡ₚ ?b => assert (Heq : a = b); [|rewrite Heq; reflexivity] end.
    clear. generalize (triples A) as l. intros l.
    assert (H : forall p q : list (nat * nat * V), omap (fun j => (p ++ q) !! j) (seq (length p) (length q)) = q).
    { intros p q. revert p. induction q as [|x q IH]; intros p; [reflexivity|]. cbn [length seq omap list_omap].
      rewrite lookup_app_r, Nat.sub_diag by lia. simpl. f_equal.
      specialize (IH (p ++ [x])). rewrite app_length, Nat.add_1_r in IH. rewrite <- app_assoc in IH. exact IH. }
    apply (H [] l).
Qed.

(** The second loop. *)
Section Loop.
Context (cp dloc ri0 : list nat) (cv0 : list V).
Hypothesis Hcp : forall c, c <= n -> cp !! c = Some (pre B c).
Hypothesis Hdl : holds m aDloc dloc.
Hypothesis Hri : length ri0 = nnz A.
Hypothesis Hcv : length cv0 = nnz A.

Lemma dloc_at j : j < nnz A -> exists d, dloc !! j = Some d /\ (j, d) ∈ G.
Proof.
  intros Hj. destruct HF as (Hp & _ & _ & Hd & _). assert (H : j ∈ fst <$> G) by (rewrite Hp, (wf_colids _ Hw); apply elem_of_seq; lia).
  apply elem_of_list_fmap in H as ([j' d] & E & HG). simpl in E. subst j'. exists d. split; [|exact HG]. rewrite Hdl. apply Hd, HG.
Qed.

Definition locOf (j : nat) : nat := pre B (colOf ci j) + default 0 (dloc !! j).

Lemma loc_at i k c v : i < rows A -> row_entries A i !! k = Some (c, v) ->
  exists d, dloc !! (P i + k) = Some d /\ locOf (P i + k) = pre B c + d /\ rowsOf B 0 n !! (pre B c + d) = Some (i, v) /\ c < n /\ pre B c + d < nnz A.
Proof.
  intros Hi Hk. pose proof (lookup_lt_Some _ _ _ Hk) as Hkl. pose proof (pre_bound A Hw i Hi). destruct (dloc_at (P i + k)) as (d & Hd & HG); [lia|].
  destruct (triples_at i k c v Hi Hk) as (_ & H2 & _). pose proof (ci_lt A Hw _ _ H2) as Hc.
  pose proof (G_bucket _ _ _ _ _ _ HG Hi eq_refl Hk) as Hb. pose proof (lookup_lt_Some _ _ _ Hb) as Hdl'.
  exists d. split; [exact Hd|]. split; [unfold locOf, colOf; rewrite H2, Hd; reflexivity|]. split; [|split; [exact Hc|]].
  - rewrite row_at by auto. exact Hb.
  - pose proof (pre_le B (S c) n ltac:(lia)) as Hle. rewrite pre_S, pre_B in Hle. lia.
Qed.

Definition evF (i : nat) : list event :=
  mjoin ((fun j => match values A !! j with
                   | Some v => [EWr (aIds, locOf j) (CN i); EWr (aVals, locOf j) (CV v)]
                   | None => [] end) <$> seq (P i) (length (row_entries A i))).

Lemma evF_elem i e : i < rows A -> e ∈ evF i -> exists k c v, row_entries A i !! k = Some (c, v) /\
  (e = EWr (aIds, locOf (P i + k)) (CN i) \/ e = EWr (aVals, locOf (P i + k)) (CV v)).
Proof.
  intros Hi Hin. apply elem_of_list_join in Hin as (l & Hl & Hin). apply elem_of_list_fmap in Hin as (j & -> & Hj). apply elem_of_seq in Hj.
  destruct (lookup_lt_is_Some_2 (row_entries A i) (j - P i)) as [[c v] Hk]; [lia|]. exists (j - P i), c, v. split; [exact Hk|].
  destruct (triples_at i _ c v Hi Hk) as (_ & _ & H3). replace (P i + (j - P i)) with j in * by lia. rewrite H3 in Hl.
  rewrite !elem_of_cons in Hl. destruct Hl as [->|[->|Hl]]; [auto|auto|inversion Hl].
Qed.
Lemma evF_in i k c v : i < rows A -> row_entries A i !! k = Some (c, v) ->
  EWr (aIds, locOf (P i + k)) (CN i) ∈ evF i /\ EWr (aVals, locOf (P i + k)) (CV v) ∈ evF i.
Proof.
  intros Hi Hk. destruct (triples_at i _ c v Hi Hk) as (_ & _ & H3). pose proof (lookup_lt_Some _ _ _ Hk).
  split; (apply elem_of_list_join; eexists; split; [|apply elem_of_list_fmap; exists (P i + k); split; [reflexivity|apply elem_of_seq; lia]]);
    rewrite H3; rewrite !elem_of_cons; auto.
Qed.

Lemma fill_ok : parfor_ends (fillRow A cp dloc) (rows A) (arrays ri0 cv0) (arrays (colids result) (values result)) /\
  parfor_race_free (fillRow A cp dloc) (rows A) (arrays ri0 cv0).
Proof.
  set (m0 := arrays ri0 cv0).
  set (own := fun i (l : loc) => (fst l = aIds \/ fst l = aVals) /\ exists v, rowsOf B 0 n !! snd l = Some (i, v)).
  set (wv := fun l : loc => (rowsOf B 0 n !! snd l) ≫= (fun x => Some (if decide (fst l = aIds) then CN (fst x) else CV (snd x)))).
  assert (Hdom : forall a p, (a = aIds \/ a = aVals) -> p < nnz A -> is_Some (m0 !! (a, p))).
  { intros a p [->| ->] Hp; unfold m0; rewrite arrays_lookup; simpl.
    - destruct (lookup_lt_is_Some_2 ri0 p) as [x ->]; [lia|]. simpl. eauto.
    - destruct (lookup_lt_is_Some_2 cv0 p) as [x ->]; [lia|]. simpl. eauto. }
  assert (Hsolo : forall i m, i < rows A -> (forall l, is_Some (m !! l) <-> is_Some (m0 !! l)) ->
    (forall l, own i l \/ (forall j, j < rows A -> ~ own j l) -> m !! l = m0 !! l) -> exists mf, solo m (fillRow A cp dloc i) (evF i) tt mf).
  { intros i m' Hi Hd _. destruct (row_ptrs A Hw i Hi) as [H1 H2]. unfold fillRow.
    destruct (solo_pfor_n (fun _ (_ : unit) mm => forall l, is_Some (mm !! l) <-> is_Some (m0 !! l))
      (fun j => match values A !! j with Some v => [EWr (aIds, locOf j) (CN i); EWr (aVals, locOf j) (CV v)] | None => [] end)
      (fun j _ => pbind (lift (get ci j)) (fun c => pbind (lift (get cp c)) (fun p => pbind (lift (get dloc j)) (fun d =>
         Wr (aIds, p + d) (CN i) (pbind (lift (get (values A) j)) (fun v => Wr (aVals, p + d) (CV v) (Ret tt)))))))
      (length (row_entries A i)) (P i) tt m') as ([] & mf & Hs & _).
    - intros j [] mm Hj Hmm. destruct (lookup_lt_is_Some_2 (row_entries A i) (j - P i)) as [[c v] Hk]; [lia|].
      destruct (triples_at i _ c v Hi Hk) as (_ & T2 & T3). destruct (loc_at i _ c v Hi Hk) as (d & L1 & L2 & _ & L4 & L5).
      replace (P i + (j - P i)) with j in * by lia. rewrite T3, L2.
      exists tt, (<[(aVals, pre B c + d) := CV v]> (<[(aIds, pre B c + d) := CN i]> mm)). split.
      + eapply solo_lift; [apply get_Some, T2|]. eapply solo_lift; [apply get_Some, Hcp; lia|]. eapply solo_lift; [apply get_Some, L1|].
        apply solo_wr; [apply Hmm, Hdom; auto|]. eapply solo_lift; [apply get_Some, T3|].
        apply solo_wr; [rewrite lookup_insert_ne by discriminate; apply Hmm, Hdom; auto|]. constructor.
      + intros l. destruct (decide (l = (aVals, pre B c + d))) as [->|N1].
        { rewrite lookup_insert. split; [intros _; apply Hdom; auto|eauto]. }
        rewrite lookup_insert_ne by congruence. destruct (decide (l = (aIds, pre B c + d))) as [->|N2].
        { rewrite lookup_insert. split; [intros _; apply Hdom; auto|eauto]. }
        rewrite lookup_insert_ne by congruence. apply Hmm.
    - exact Hd.
    - exists mf. eapply solo_lift; [apply get_Some, H1|]. eapply solo_lift; [apply get_Some, H2|].
      unfold pfor. rewrite Nat.add_comm, Nat.add_sub. exact Hs. }
  assert (Hww : forall i l v, i < rows A -> EWr l v ∈ evF i -> own i l /\ wv l = Some v).
  { intros i l v Hi Hin. apply evF_elem in Hin as (k & c & w & Hk & He); [|exact Hi].
    destruct (loc_at i k c w Hi Hk) as (d & _ & L2 & L3 & _). unfold own, wv.
    destruct He as [[= -> ->]|[= -> ->]]; simpl; rewrite L2, L3; simpl; eauto. }
  assert (Hr : forall i j l, i < rows A -> j < rows A -> ERd l ∈ evF i -> own j l -> j = i).
  { intros i j l Hi _ Hin _. apply evF_elem in Hin as (k & c & w & _ & [H|H]); [discriminate..|exact Hi]. }
  assert (Ha : forall i j l, i < rows A -> j < rows A -> EAny l ∈ evF i -> own j l -> j = i).
  { intros i j l Hi _ Hin _. apply evF_elem in Hin as (k & c & w & _ & [H|H]); [discriminate..|exact Hi]. }
  assert (Hx : forall i j l, i < rows A -> j < rows A -> own i l -> own j l -> i = j).
  { intros i j l _ _ [_ [v1 E1]] [_ [v2 E2]]. congruence. }
  split; [|exact (parfor_owned_race _ (rows A) m0 evF own wv Hsolo Hww Hr Ha Hx)].
  destruct (parfor_owned _ (rows A) m0 evF own wv Hsolo Hww Hr Ha Hx) as (m' & Hend & Hwr & Hkp).
  replace (arrays (colids result) (values result)) with m'; [exact Hend|]. apply map_eq. intros [a p].
  assert (Hlen : length (rowsOf B 0 n) = nnz A) by (rewrite rowsOf_length, pre_0, pre_B by lia; lia).
  rewrite arrays_lookup. unfold result. simpl. rewrite !list_lookup_fmap.
  destruct (decide (a = aIds \/ a = aVals)) as [Hav|Hna].
  - destruct (Nat.lt_ge_cases p (nnz A)) as [Hp|Hp].
    + rewrite <- pre_B in Hp. destruct (in_row B n p Hp) as (c & Hc & Hs).
      destruct (lookup_lt_is_Some_2 (B c) (p - pre B c)) as [[i v] Hb]; [lia|].
      destruct (bucket_back _ _ _ _ Hb) as (j & k & HG & Hi & -> & Hk).
      destruct (loc_at i k c v Hi Hk) as (d & L1 & L2 & L3 & _).
      assert (d = p - pre B c) as ->.
      { destruct HF as (_ & _ & _ & Hd & _). pose proof (Hd _ _ HG) as E. rewrite <- Hdl, L1 in E. congruence. }
      replace (pre B c + (p - pre B c)) with p in * by lia. rewrite L3. destruct (evF_in i k c v Hi Hk) as [E1 E2]. rewrite L2 in E1, E2.
      destruct Hav as [->| ->]; simpl; eapply Hwr; eauto.
    + rewrite (lookup_ge_None_2 (rowsOf B 0 n)) by lia. rewrite Hkp.
      * unfold m0. rewrite arrays_lookup. rewrite !lookup_ge_None_2 by lia. destruct Hav as [->| ->]; reflexivity.
      * intros i v Hi Hin. apply evF_elem in Hin as (k & c & w & Hk & He); [|exact Hi]. destruct (loc_at i k c w Hi Hk) as (d & _ & L2 & _ & _ & L5).
        destruct He as [[= -> -> ->]|[= -> -> ->]]; lia.
  - rewrite Hkp.
    + unfold m0. rewrite arrays_lookup. rewrite !decide_False by tauto. reflexivity.
    + intros i v Hi Hin. apply evF_elem in Hin as (k & c & w & Hk & He); [|exact Hi].
      destruct He as [[= -> -> ->]|[= -> -> ->]]; tauto.
Qed.
End Loop.
End Its.
End G.
End Fill.
