(** Correctness of the heap row kernels. *)
From Verif Require Import Base Spec KernelBase BaseProofs ComplProofs MsaProofs McaProofs HeapModel HeapPrimProofs.

Notation pcols := (fmap (fun p => fst (fst p))).

Section Search.
Context {V : Type}.
Variables (B M : csr V) (inner row bb be mb me : nat).
Hypotheses (HB : wf B) (HM : wf M) (Hin : inner < rows B) (Hrow : row < rows M).
Hypotheses (Hbb : rowptr B !! inner = Some bb) (Hbe : rowptr B !! (inner + 1) = Some be).
Hypotheses (Hmb : rowptr M !! row = Some mb) (Hme : rowptr M !! (row + 1) = Some me).
Hypotheses (HsB : StronglySorted lt (row_cols B inner)) (HsM : StronglySorted lt (row_cols M row)).
Let cB := row_cols B inner.
Let mask := row_cols M row.

Lemma cB_len : length cB = be - bb.
Proof. unfold cB. rewrite row_cols_length. apply row_entries_length; auto. Qed.
Lemma mask_len : length mask = me - mb.
Proof. unfold mask. rewrite row_cols_length. apply row_entries_length; auto. Qed.
Lemma cB_get i c : cB !! i = Some c -> get (colids B) (bb + i) = Ok c.
Proof. intros H. apply get_Some. apply (row_cols_index B inner bb be i c HB Hin Hbb Hbe) in H. tauto. Qed.
Lemma mask_get i c : mask !! i = Some c -> get (colids M) (mb + i) = Ok c.
Proof. intros H. apply get_Some. apply (row_cols_index M row mb me i c HM Hrow Hmb Hme) in H. tauto. Qed.

(** A key strictly between two neighbouring mask columns is not in the mask. *)
Lemma between_notin p key m : mask !! p = Some m ->
  (forall q c, q < p -> mask !! q = Some c -> c < key) -> key < m -> key ∉ mask.
Proof.
  intros Hp Hlow Hlt Hel. apply elem_of_list_lookup in Hel as [q Hq].
  destruct (lt_eq_lt_dec q p) as [[Hqp| ->]|Hqp].
  - specialize (Hlow q key Hqp Hq). lia.
  - rewrite Hp in Hq. inversion Hq. lia.
  - pose proof (SSorted_lookup_lt mask p q m key HsM Hp Hq Hqp). lia.
Qed.

Lemma above_notin key : (forall q c, mask !! q = Some c -> c < key) -> forall key', key <= key' -> key' ∉ mask.
Proof. intros H key' Hk Hel. apply elem_of_list_lookup in Hel as [q Hq]. specialize (H q key' Hq). lia. Qed.

Lemma cB_lt i j a b : cB !! i = Some a -> cB !! j = Some b -> i < j -> a < b.
Proof. intros Ha Hb Hij. exact (SSorted_lookup_lt _ _ _ _ _ HsB Ha Hb Hij). Qed.
Lemma cB_le i j a b : cB !! i = Some a -> cB !! j = Some b -> i <= j -> a <= b.
Proof.
  intros Ha Hb Hij. destruct (decide (i = j)) as [->|Hne]; [rewrite Ha in Hb; inversion Hb; lia|].
  assert (a < b); [|lia]. eapply cB_lt; eauto. lia.
Qed.

Definition adv_res (i : nat) (key loc : nat) (keep : bool) : Prop :=
  if keep then exists i', i <= i' /\ loc = bb + i' /\ cB !! i' = Some key /\
      (forall k c, i <= k < i' -> cB !! k = Some c -> c ∉ mask)
  else forall k c, i <= k -> cB !! k = Some c -> c ∉ mask.

Lemma search_spec stop : forall fuel i p key, cB !! i = Some key -> p < stop -> stop <= me - mb ->
  (forall q c, q < p -> mask !! q = Some c -> c < key) ->
  (be - bb - i) + (stop - p) <= fuel ->
  exists key' loc' keep, search fuel B M be (mb + stop) me key (bb + i) (mb + p) = Ok (key', loc', keep) /\
    adv_res i key' loc' keep.
Proof.
  induction fuel as [|fuel IH]; intros i p key Hi Hp Hstop Hlow Hf.
  { apply lookup_lt_Some in Hi. lia. }
  destruct (lookup_lt_is_Some_2 mask p) as [m Hm]; [rewrite mask_len; lia|].
  cbn [search]. rewrite (mask_get _ _ Hm), bind_Ok.
  pose proof (lookup_lt_Some _ _ _ Hi) as Hil. rewrite cB_len in Hil.
  destruct (Nat.ltb_spec key m) as [Hlt|Hge].
  - assert (key ∉ mask) as Hnin by (eapply between_notin; eauto).
    destruct (Nat.leb_spec be (bb + i + 1)) as [Hend|Hend].
    + eexists _, _, false. split; [reflexivity|]. intros k c Hk Hc.
      assert (k = i) as ->. { apply lookup_lt_Some in Hc. rewrite cB_len in Hc. lia. }
      rewrite Hi in Hc. inversion Hc; subst. exact Hnin.
    + destruct (lookup_lt_is_Some_2 cB (i + 1)) as [key' Hk']; [rewrite cB_len; lia|].
      replace (bb + i + 1) with (bb + (i + 1)) by lia. rewrite (cB_get _ _ Hk'), bind_Ok.
      destruct (IH (i + 1) p key' Hk' Hp Hstop) as (key2 & loc2 & keep & He & Hr); [|lia|].
      { intros q c Hq Hc. specialize (Hlow q c Hq Hc). pose proof (cB_lt i (i + 1) key key' Hi Hk'). lia. }
      exists key2, loc2, keep. split; [exact He|]. destruct keep; cbn [adv_res] in *.
      * destruct Hr as (i' & H1 & H2 & H3 & H4). exists i'. split; [lia|]. split; [exact H2|]. split; [exact H3|].
        intros k c Hk Hc. destruct (decide (k = i)) as [->|Hne].
        -- rewrite Hi in Hc. inversion Hc; subst. exact Hnin.
        -- apply (H4 k c); [lia|exact Hc].
      * intros k c Hk Hc. destruct (decide (k = i)) as [->|Hne].
        -- rewrite Hi in Hc. inversion Hc; subst. exact Hnin.
        -- apply (Hr k c); [lia|exact Hc].
  - destruct (Nat.ltb_spec m key) as [Hlt|Hge'].
    + assert (Hlow' : forall q c, q < p + 1 -> mask !! q = Some c -> c < key).
      { intros q c Hq Hc. destruct (decide (q = p)) as [->|Hne].
        - rewrite Hm in Hc. inversion Hc; subst. exact Hlt.
        - apply (Hlow q c); [lia|exact Hc]. }
      destruct (Nat.eqb_spec (mb + p + 1) (mb + stop)) as [He|He].
      * destruct (Nat.eqb_spec (mb + p + 1) me) as [He'|He']; cbn [negb].
        -- eexists _, _, false. split; [reflexivity|]. intros k c Hk Hc.
           apply (above_notin key); [|eapply cB_le; eauto].
           intros q c' Hq. apply (Hlow' q c'); [|exact Hq]. apply lookup_lt_Some in Hq. rewrite mask_len in Hq. lia.
        -- eexists _, _, true. split; [reflexivity|]. exists i. split; [lia|]. split; [reflexivity|].
           split; [exact Hi|]. intros k c Hk. lia.
      * replace (mb + p + 1) with (mb + (p + 1)) in * by lia. apply IH; auto; lia.
    + eexists _, _, true. split; [reflexivity|]. exists i. split; [lia|]. split; [reflexivity|].
      split; [exact Hi|]. intros k c Hk. lia.
Qed.

Lemma skip_init_spec p m : mask !! p = Some m -> (p = 0) ->
  forall fuel i key, cB !! i = Some key -> be - bb - i < fuel ->
  exists key' loc', skip_init fuel B M be key (bb + i) (mb + p) = Ok (key', loc') /\ adv_res i key' loc' true.
Proof.
  intros Hm Hp0. induction fuel as [|fuel IH]; intros i key Hi Hf; [lia|].
  cbn [skip_init]. rewrite (mask_get _ _ Hm), bind_Ok.
  destruct (Nat.ltb_spec key m) as [Hlt|Hge]; cbn [andb].
  1: destruct (Nat.ltb_spec (bb + i + 1) be) as [Hl|Hl].
  - destruct (lookup_lt_is_Some_2 cB (i + 1)) as [key' Hk']; [rewrite cB_len; lia|].
    replace (bb + i + 1) with (bb + (i + 1)) by lia. rewrite (cB_get _ _ Hk'), bind_Ok.
    destruct (IH (i + 1) key' Hk') as (k2 & l2 & He & i' & H1 & H2 & H3 & H4); [lia|].
    exists k2, l2. split; [exact He|]. exists i'. split; [lia|]. split; [exact H2|]. split; [exact H3|].
    intros k c Hk Hc. destruct (decide (k = i)) as [->|Hne].
    + rewrite Hi in Hc. inversion Hc; subst. eapply between_notin; eauto. intros q c' Hq. lia.
    + apply (H4 k c); [lia|exact Hc].
  - eexists _, _. split; [reflexivity|]. exists i. split; [lia|]. split; [reflexivity|].
    split; [exact Hi|]. intros k c Hk. lia.
  - eexists _, _. split; [reflexivity|]. exists i. split; [lia|]. split; [reflexivity|].
    split; [exact Hi|]. intros k c Hk. lia.
Qed.

Lemma skip_next_spec p m : mask !! p = Some m ->
  forall fuel i key0 key, cB !! i = Some key0 -> (forall q c, q < p -> mask !! q = Some c -> c < key0) ->
  be - bb - i < fuel ->
  exists key' loc', skip_next fuel B M be key (bb + i) (mb + p) = Ok (key', loc') /\
    adv_res (i + 1) key' loc' (loc' <? be).
Proof.
  intros Hm. induction fuel as [|fuel IH]; intros i key0 key Hi Hlow Hf; [lia|].
  cbn [skip_next]. pose proof (lookup_lt_Some _ _ _ Hi) as Hil. rewrite cB_len in Hil.
  destruct (Nat.ltb_spec (bb + i + 1) be) as [Hl|Hl].
  - destruct (lookup_lt_is_Some_2 cB (i + 1)) as [key' Hk']; [rewrite cB_len; lia|].
    replace (bb + i + 1) with (bb + (i + 1)) by lia. rewrite (cB_get _ _ Hk'), bind_Ok, (mask_get _ _ Hm), bind_Ok.
    pose proof (cB_lt i (i + 1) key0 key' Hi Hk' ltac:(lia)) as Hkk.
    assert (Hlow' : forall q c, q < p -> mask !! q = Some c -> c < key').
    { intros q c Hq Hc. specialize (Hlow q c Hq Hc). lia. }
    destruct (Nat.leb_spec m key') as [Hle|Hgt].
    + eexists _, _. split; [reflexivity|]. destruct (Nat.ltb_spec (bb + (i + 1)) be); [|lia].
      exists (i + 1). split; [lia|]. split; [reflexivity|]. split; [exact Hk'|]. intros k c Hk. lia.
    + destruct (IH (i + 1) key' key' Hk' Hlow') as (k2 & l2 & He & Hr); [lia|].
      exists k2, l2. split; [exact He|].
      assert (key' ∉ mask) as Hnin by (eapply between_notin; eauto).
      destruct (l2 <? be); cbn [adv_res] in *.
      * destruct Hr as (i' & H1 & H2 & H3 & H4). exists i'. split; [lia|]. split; [exact H2|]. split; [exact H3|].
        intros k c Hk Hc. destruct (decide (k = i + 1)) as [->|Hne].
        -- rewrite Hk' in Hc. inversion Hc; subst. exact Hnin.
        -- apply (H4 k c); [lia|exact Hc].
      * intros k c Hk Hc. destruct (decide (k = i + 1)) as [->|Hne].
        -- rewrite Hk' in Hc. inversion Hc; subst. exact Hnin.
        -- apply (Hr k c); [lia|exact Hc].
  - eexists _, _. split; [reflexivity|]. destruct (Nat.ltb_spec (bb + i + 1) be); [lia|].
    intros k c Hk Hc. apply lookup_lt_Some in Hc. rewrite cB_len in Hc. lia.
Qed.

Lemma adv_mask_spec key : forall fuel p, p <= me - mb -> me - mb - p < fuel ->
  (forall q c, q < p -> mask !! q = Some c -> c < key) ->
  exists p', adv_mask fuel M key (mb + p) me = Ok (mb + p') /\ p <= p' <= me - mb /\
    (forall q c, q < p' -> mask !! q = Some c -> c < key) /\
    (forall m, mask !! p' = Some m -> key <= m).
Proof.
  clear HB Hin Hbb Hbe HsB HsM.
  induction fuel as [|fuel IH]; intros p Hp Hf Hlow; [lia|].
  cbn [adv_mask]. destruct (Nat.ltb_spec (mb + p) me) as [Hl|Hl].
  - destruct (lookup_lt_is_Some_2 mask p) as [m Hm]; [rewrite mask_len; lia|].
    rewrite (mask_get _ _ Hm), bind_Ok. destruct (Nat.ltb_spec m key) as [Hlt|Hge].
    + replace (mb + p + 1) with (mb + (p + 1)) by lia.
      destruct (IH (p + 1)) as (p' & H1 & H2 & H3 & H4); [lia|lia| |].
      * intros q c Hq Hc. destruct (decide (q = p)) as [->|Hne].
        -- rewrite Hm in Hc. inversion Hc; subst. exact Hlt.
        -- apply (Hlow q c); [lia|exact Hc].
      * exists p'. split; [exact H1|]. split; [lia|]. auto.
    + exists p. split; [reflexivity|]. split; [lia|]. split; [exact Hlow|].
      intros m' Hm'. rewrite Hm in Hm'. inversion Hm'; subst. exact Hge.
  - exists p. split; [reflexivity|]. split; [lia|]. split; [exact Hlow|].
    intros m Hm. apply lookup_lt_Some in Hm. rewrite mask_len in Hm. lia.
Qed.
End Search.

(** 64-bit look-ahead bound: [insp] is unbounded or adding it to a mask position does not wrap. *)
Definition insp_ok (insp : N) (nnzM : nat) : Prop :=
  (insp < 2 \/ insp = 2 ^ 64 - 1 \/ N.of_nat nnzM + insp < 2 ^ 64)%N.

Lemma maskStopOf_spec insp mb p me nnzM : insp_ok insp nnzM -> (2 <= insp)%N -> mb + p < me -> me <= nnzM ->
  exists stop, maskStopOf insp (mb + p) me = mb + stop /\ p < stop /\ stop <= me - mb.
Proof.
  intros Hok H2 Hp Hme. unfold maskStopOf.
  destruct (N.eqb_spec insp (2 ^ 64 - 1)) as [He|He].
  - exists (me - mb). lia.
  - destruct Hok as [Hok|[Hok|Hok]]; [lia|congruence|].
    rewrite N.mod_small by lia.
    exists (N.to_nat (N.min (N.of_nat (mb + p) + insp) (N.of_nat me)) - mb). lia.
Qed.

Section HeapRow.
Context {V : Type}.
Variables (insp : N) (A B M : csr V) (row mb me : nat).
Hypotheses (Hco : compatible A B M) (Hrow : row < rows A) (HsB : sorted_rows B).
Hypotheses (HsM : StronglySorted lt (row_cols M row)) (Hok : insp_ok insp (nnz M)).
Hypotheses (Hmb : rowptr M !! row = Some mb) (Hme : rowptr M !! (row + 1) = Some me) (Hne : mb < me).
Notation mask := (row_cols M row).
Notation all := (row_prods A B row).
Local Notation prod := (nat * V * V)%type.

Local Lemma HA : wf A. Proof. apply Hco. Qed.
Local Lemma HB : wf B. Proof. apply Hco. Qed.
Local Lemma HM : wf M. Proof. apply Hco. Qed.
Local Lemma HrM : row < rows M. Proof. rewrite (co_rows _ _ _ Hco). exact Hrow. Qed.
Local Lemma Hmn : me <= nnz M. Proof. eapply wf_le_nnz; [apply HM|exact Hme|]. pose proof HrM. lia. Qed.
Local Lemma mlen : length mask = me - mb. Proof. apply mask_len; [apply HM|apply HrM|assumption..]. Qed.

(** What an entry of the heap stands for: the products of one A entry with the rest of a B row. *)
Definition erem (e : hentry) : list prod :=
  match colids A !! erunr e, values A !! erunr e with
  | Some inner, Some a =>
    match rowptr B !! inner with Some bb => prods_of a (drop (eloc e - bb) (row_entries B inner)) | None => [] end
  | _, _ => []
  end.

Record valid (e : hentry) : Prop := mkValid {
  v_ex : exists inner a bb be i, colids A !! erunr e = Some inner /\ values A !! erunr e = Some a /\
    inner < rows B /\ rowptr B !! inner = Some bb /\ rowptr B !! (inner + 1) = Some be /\
    eloc e = bb + i /\ row_cols B inner !! i = Some (ek e) }.

Definition rems (l : list hentry) : list prod := mjoin (erem <$> l).

Lemma rems_cons e l : rems (e :: l) = erem e ++ rems l.
Proof. unfold rems. rewrite fmap_cons, mjoin_cons. reflexivity. Qed.

Lemma mjoin_Permutation {T} (l1 l2 : list (list T)) : l1 ≡ₚ l2 -> mjoin l1 ≡ₚ mjoin l2.
Proof.
  induction 1 as [|x l1 l2 H IH|x y l|l1 l2 l3 H1 IH1 H2 IH2]; [reflexivity| | |].
  - rewrite !mjoin_cons, IH. reflexivity.
  - rewrite !mjoin_cons, !app_assoc. apply Permutation_app_tail, Permutation_app_comm.
  - rewrite IH1. exact IH2.
Qed.

Lemma rems_perm l1 l2 : l1 ≡ₚ l2 -> rems l1 ≡ₚ rems l2.
Proof. intros H. apply mjoin_Permutation. rewrite H. reflexivity. Qed.

Lemma prods_of_cols (a : V) l : pcols (prods_of a l) = fst <$> l.
Proof. unfold prods_of. rewrite <- list_fmap_compose. reflexivity. Qed.

(** Anatomy of a valid entry. *)
Lemma valid_anatomy e : valid e -> exists inner a b bb be i,
  colids A !! erunr e = Some inner /\ values A !! erunr e = Some a /\ values B !! eloc e = Some b /\
  inner < rows B /\ rowptr B !! inner = Some bb /\ rowptr B !! (inner + 1) = Some be /\
  eloc e = bb + i /\ i < be - bb /\ be <= nnz B /\ row_cols B inner !! i = Some (ek e) /\ ek e < cols B /\
  erem e = (ek e, a, b) :: prods_of a (drop (Datatypes.S i) (row_entries B inner)).
Proof.
  intros [(inner & a & bb & be & i & H1 & H2 & H3 & H4 & H5 & H6 & H7)].
  pose proof H7 as H7'. apply row_cols_lookup in H7' as [b Hb].
  destruct (row_entries_lookup B inner bb be i (ek e) b HB H3 H4 H5 Hb) as (Hi & Hc & Hv).
  exists inner, a, b, bb, be, i. rewrite H6. split; [exact H1|]. split; [exact H2|]. split; [exact Hv|].
  split; [exact H3|]. split; [exact H4|]. split; [exact H5|]. split; [reflexivity|]. split; [exact Hi|].
  split; [eapply wf_le_nnz; [apply HB|exact H5|lia]|]. split; [exact H7|].
  split; [eapply (wf_range B HB); eauto|].
  unfold erem. rewrite H1, H2, H4, H6. replace (bb + i - bb) with i by lia.
  rewrite (drop_S _ _ _ Hb). reflexivity.
Qed.

Lemma erem_ge e p : valid e -> p ∈ erem e -> ek e <= fst (fst p).
Proof.
  intros Hv Hp. destruct (valid_anatomy e Hv) as (inner & a & b & bb & be & i & _ & _ & _ & H3 & H4 & H5 & _ & _ & _ & H7 & _ & Hr).
  rewrite Hr in Hp. apply elem_of_cons in Hp as [->|Hp]; [reflexivity|].
  assert (fst (fst p) ∈ (fst <$> drop (Datatypes.S i) (row_entries B inner))) as Hel.
  { rewrite <- (prods_of_cols a). apply elem_of_list_fmap. eauto. }
  rewrite fmap_drop in Hel. apply elem_of_list_lookup in Hel as [q Hq]. rewrite lookup_drop in Hq.
  assert (ek e < fst (fst p)); [|lia].
  eapply (SSorted_lookup_lt (row_cols B inner) i); [apply HsB, H3|exact H7|exact Hq|lia].
Qed.

(** Advancing within the row: from the current position [i] to the result of a search from [i+1]. *)
Lemma adv_rest inner a bb be i e key loc keep :
  colids A !! erunr e = Some inner -> values A !! erunr e = Some a -> inner < rows B ->
  rowptr B !! inner = Some bb -> rowptr B !! (inner + 1) = Some be ->
  adv_res B M inner row bb i key loc keep ->
  exists sk, Forall (fun p : prod => fst (fst p) ∉ mask) sk /\
    (if keep then valid (mkEnt key (erunr e) loc) /\
        prods_of a (drop i (row_entries B inner)) = sk ++ erem (mkEnt key (erunr e) loc) /\
        (forall c, row_cols B inner !! i = Some c -> c <= key)
     else prods_of a (drop i (row_entries B inner)) = sk).
Proof.
  intros H1 H2 H3 H4 H5 Hr. destruct keep; cbn [adv_res] in Hr.
  - destruct Hr as (i' & Hle & -> & Hk & Hsk).
    exists (prods_of a (take (i' - i) (drop i (row_entries B inner)))). split.
    + apply Forall_forall. intros p Hp.
      assert (fst (fst p) ∈ (fst <$> take (i' - i) (drop i (row_entries B inner)))) as Hel.
      { rewrite <- (prods_of_cols a). apply elem_of_list_fmap. eauto. }
      rewrite fmap_take, fmap_drop in Hel. apply elem_of_list_lookup in Hel as [q Hq].
      apply lookup_take_Some in Hq as [Hq Hlt]. rewrite lookup_drop in Hq. apply (Hsk (i + q)); [lia|exact Hq].
    + split; [split; exists inner, a, bb, be, i'; cbn [erunr eloc ek]; auto 10|]. split.
      * unfold erem. cbn [erunr eloc]. rewrite H1, H2, H4. replace (bb + i' - bb) with i' by lia.
        unfold prods_of. rewrite <- fmap_app. f_equal.
        rewrite <- (take_drop (i' - i) (drop i (row_entries B inner))) at 1. f_equal.
        rewrite drop_drop. f_equal. lia.
      * intros c Hc. destruct (decide (i = i')) as [->|Hne'].
        -- rewrite Hc in Hk. inversion Hk; lia.
        -- assert (c < key); [|lia]. eapply (SSorted_lookup_lt (row_cols B inner) i i'); [apply HsB, H3|eassumption|eassumption|lia].
  - exists (prods_of a (drop i (row_entries B inner))). split; [|reflexivity].
    apply Forall_forall. intros p Hp.
    assert (fst (fst p) ∈ (fst <$> drop i (row_entries B inner))) as Hel.
    { rewrite <- (prods_of_cols a). apply elem_of_list_fmap. eauto. }
    rewrite fmap_drop in Hel. apply elem_of_list_lookup in Hel as [q Hq]. rewrite lookup_drop in Hq.
    apply (Hr (i + q)); [lia|exact Hq].
Qed.

Lemma insertNext_spec isp p e l0 h : insp_ok isp (nnz M) -> (isp <> 0%N -> p < me - mb) ->
  (isp <> 0%N -> forall q c, q < p -> mask !! q = Some c -> c < ek e) ->
  hp h = e :: l0 -> is_heap (hp h) -> Forall valid (hp h) ->
  exists h' x rest sk, insertNext isp A B M (mb + p) me e h = Ok h' /\ erem e = x :: rest /\ fst (fst x) = ek e /\
    is_heap (hp h') /\ Forall valid (hp h') /\ hcap h' = hcap h /\ hmax h' = hmax h /\
    sk ++ rems (hp h') ≡ₚ rest ++ rems l0 /\ Forall (fun p : prod => fst (fst p) ∉ mask) sk /\ (isp = 0%N -> sk = []) /\
    (forall e', e' ∈ hp h' -> ek e <= ek e').
Proof.
  intros Hisp Hp Hlow Hh Hheap Hval.
  assert (Hve : valid e) by (rewrite Hh in Hval; inversion Hval; assumption).
  destruct (valid_anatomy e Hve) as (inner & a & b & bb & be & i & H1 & H2 & Hb & H3 & H4 & H5 & H6 & Hi & Hben & H7 & Hlt & Hr).
  unfold insertNext. rewrite (get_Some _ _ _ H1), bind_Ok, (get_Some _ _ _ H5), bind_Ok. rewrite H6.
  assert (Hmin : forall e', e' ∈ hp h -> ek e <= ek e').
  { apply (is_heap_min (hp h) e Hheap). rewrite Hh. reflexivity. }
  (* common end *)
  assert (Hend : forall key loc keep, adv_res B M inner row bb (i + 1) key loc keep ->
     (isp = 0%N -> keep = true -> loc = bb + (i + 1)) -> (isp = 0%N -> keep = false -> i + 1 >= be - bb) ->
     exists h' x rest sk, (h <- h_setRoot h (mkEnt key (erunr e) loc) ;; if keep : bool then h_sinkRoot h else h_pop h) = Ok h' /\
       erem e = x :: rest /\ fst (fst x) = ek e /\
    is_heap (hp h') /\ Forall valid (hp h') /\ hcap h' = hcap h /\ hmax h' = hmax h /\
    sk ++ rems (hp h') ≡ₚ rest ++ rems l0 /\ Forall (fun p : prod => fst (fst p) ∉ mask) sk /\ (isp = 0%N -> sk = []) /\
    (forall e', e' ∈ hp h' -> ek e <= ek e')).
  { intros key loc keep Hadv H0k H0d.
    destruct (adv_rest inner a bb be (i + 1) e key loc keep H1 H2 H3 H4 H5 Hadv) as (sk & Hsk & Hrest).
    unfold h_setRoot. rewrite set_Ok by (rewrite Hh; simpl; lia). rewrite Hh. cbn [insert list_insert bind].
    set (e' := mkEnt key (erunr e) loc) in *. set (h1 := mkHeap (e' :: l0) (hcap h) (hmax h)).
    assert (root_bad (hp h1)) as Hbad by (eapply root_bad_set; eauto).
    rewrite Nat.add_1_r in Hrest. rewrite Hh in Hval. apply Forall_cons in Hval as [_ Hval].
    destruct keep.
    - destruct Hrest as (Hv' & Hrest & Hge).
      destruct (h_sinkRoot_spec h1 e' l0 eq_refl Hbad) as (h' & -> & Hp' & Hheap' & Hc' & Hm').
      eexists h', _, _, sk. split; [reflexivity|]. split; [exact Hr|]. split; [reflexivity|]. split; [exact Hheap'|].
      split; [rewrite Hp'; constructor; assumption|]. split; [exact Hc'|]. split; [exact Hm'|].
      split. { rewrite Hrest, (rems_perm _ _ Hp'), rems_cons, app_assoc. reflexivity. }
      split; [exact Hsk|]. split.
      { intros H0. specialize (H0k H0 eq_refl). clear -H0k Hrest H1 H2 H4.
        assert (length (prods_of a (drop (Datatypes.S i) (row_entries B inner))) = length (erem e')) as Hlen.
        { f_equal. unfold erem, e'. cbn [erunr eloc]. rewrite H1, H2, H4, H0k. f_equal. f_equal. lia. }
        rewrite Hrest, app_length in Hlen. destruct sk; [reflexivity|simpl in Hlen; lia]. }
      intros e'' He''. rewrite Hp' in He''. apply elem_of_cons in He'' as [->|He''].
      + unfold e'. cbn [ek]. destruct Hadv as (i' & Hle & _ & Hk & _).
        assert (ek e < key); [|lia]. eapply (SSorted_lookup_lt (row_cols B inner) i i'); [apply HsB, H3|eassumption|eassumption|lia].
      + apply Hmin. rewrite Hh. right. exact He''.
    - destruct (h_pop_spec h1 e' l0 eq_refl Hbad) as (h' & -> & Hp' & Hheap' & Hc' & Hm').
      eexists h', _, _, sk. split; [reflexivity|]. split; [exact Hr|]. split; [reflexivity|]. split; [exact Hheap'|].
      split; [rewrite Hp'; assumption|]. split; [exact Hc'|]. split; [exact Hm'|].
      split. { rewrite Hrest, (rems_perm _ _ Hp'). reflexivity. }
      split; [exact Hsk|]. split.
      { intros H0. specialize (H0d H0 eq_refl). rewrite <- Hrest. rewrite drop_ge; [reflexivity|].
        rewrite (row_entries_length B inner bb be HB H3 H4 H5). lia. }
      intros e'' He''. rewrite Hp' in He''. apply Hmin. rewrite Hh. right. exact He''. }
  destruct (N.eqb_spec isp 0) as [H0|H0].
  - destruct (Nat.ltb_spec (bb + i + 1) be) as [Hl|Hl].
    + destruct (lookup_lt_is_Some_2 (row_cols B inner) (i + 1)) as [key Hk].
      { rewrite (cB_len B inner bb be HB H3 H4 H5). lia. }
      replace (bb + i + 1) with (bb + (i + 1)) by lia.
      rewrite (cB_get B inner bb be HB H3 H4 H5 _ _ Hk). rewrite !bind_Ok.
      apply (Hend key (bb + (i + 1)) true); [|auto|discriminate].
      exists (i + 1). split; [lia|]. split; [reflexivity|]. split; [exact Hk|]. intros k c Hkk. lia.
    + rewrite bind_Ok. apply (Hend (ek e) (bb + i + 1) false); [|discriminate|lia].
      intros k c Hk Hc. apply lookup_lt_Some in Hc. rewrite (cB_len B inner bb be HB H3 H4 H5) in Hc. lia.
  - destruct (N.eqb_spec isp 1) as [H1'|H1'].
    + destruct (lookup_lt_is_Some_2 mask p) as [m Hm]; [rewrite mlen; auto|].
      destruct (skip_next_spec B M inner row bb be mb me HB HM H3 HrM H4 H5 Hmb Hme (HsB inner H3) HsM p m Hm
        (be - (bb + i) + 1) i (ek e) (ek e) H7 (Hlow H0)) as (key & loc & -> & Hadv); [lia|].
      rewrite !bind_Ok. apply (Hend key loc (loc <? be) Hadv); intros; contradiction.
    + destruct (Nat.leb_spec be (bb + i + 1)) as [Hl|Hl].
      * rewrite bind_Ok. apply (Hend (ek e) (bb + i + 1) false); [|discriminate|contradiction].
        intros k c Hk Hc. apply lookup_lt_Some in Hc. rewrite (cB_len B inner bb be HB H3 H4 H5) in Hc. lia.
      * destruct (lookup_lt_is_Some_2 (row_cols B inner) (i + 1)) as [key Hk].
        { rewrite (cB_len B inner bb be HB H3 H4 H5). lia. }
        replace (bb + i + 1) with (bb + (i + 1)) by lia.
        rewrite (cB_get B inner bb be HB H3 H4 H5 _ _ Hk). rewrite !bind_Ok.
        destruct (maskStopOf_spec isp mb p me (nnz M) Hisp) as (stop & -> & Hps & Hsm); [lia|specialize (Hp H0); lia|apply Hmn|].
        destruct (search_spec B M inner row bb be mb me HB HM H3 HrM H4 H5 Hmb Hme (HsB inner H3) HsM stop
          (be - (bb + i) + (me - (mb + p)) + 1) (i + 1) p key Hk Hps Hsm) as (key' & loc & keep & -> & Hadv); [|lia|].
        { intros q c Hq Hc. specialize (Hlow H0 q c Hq Hc).
          assert (ek e < key); [|lia]. eapply (SSorted_lookup_lt (row_cols B inner) i (i + 1)); [apply HsB, H3|eassumption|eassumption|lia]. }
        rewrite !bind_Ok. apply (Hend key' loc keep Hadv); intros; contradiction.
Qed.

(** *** initHeap *)
Lemma initHeap_spec h : hp h = [] -> length (row_entries A row) <= hcap h ->
  exists h' sk, initHeap insp A B M row mb me h = Ok h' /\ is_heap (hp h') /\ Forall valid (hp h') /\
    hcap h' = hcap h /\ hmax h <= hmax h' <= Nat.max (hmax h) (hcap h) /\
    sk ++ rems (hp h') ≡ₚ all /\ Forall (fun p : prod => fst (fst p) ∉ mask) sk /\ (insp = 0%N -> sk = []).
Proof.
  intros Hh Hcap. unfold initHeap.
  destruct (row_bounds_wf A row HA Hrow) as (ab & ae & Hab & Hae & _ & _ & ->). rewrite bind_Ok.
  destruct (row_loop_inv A row ab ae (fun done h' => Forall valid (hp h') /\ hcap h' = hcap h /\ hmax h' = hmax h /\
      length (hp h') <= length done /\
      exists sk, sk ++ rems (hp h') ≡ₚ rp B done /\ Forall (fun p : prod => fst (fst p) ∉ mask) sk /\ (insp = 0%N -> sk = []))
    (initStep insp A B M mb me) h HA Hrow Hab Hae) as (h1 & -> & Hv & Hc & Hm & Hl & sk & Hperm & Hsk & Hsk0).
  - rewrite Hh. split; [constructor|]. split; [reflexivity|]. split; [reflexivity|]. split; [simpl; lia|].
    exists []. split; [reflexivity|]. split; [constructor|]. reflexivity.
  - intros done j k v rest h1 Hl Hj Hk Hva Hkc (Hv & Hc & Hm & Hlen & sk & Hperm & Hsk & Hsk0).
    assert (k < rows B) as HkB by (rewrite <- (co_inner _ _ _ Hco); exact Hkc).
    assert (length done < length (row_entries A row)) as Hdl by (rewrite Hl, app_length; simpl; lia).
    unfold initStep. rewrite (get_Some _ _ _ Hk), bind_Ok.
    destruct (row_bounds_wf B k HB HkB) as (bb & be & Hbb & Hbe & Hle & Hben & ->). rewrite bind_Ok.
    pose proof (row_entries_length B k bb be HB HkB Hbb Hbe) as HlB.
    rewrite rp_snoc, app_length. simpl length.
    destruct (Nat.eqb_spec (be - bb) 0) as [He|He].
    { exists h1. split; [reflexivity|]. split; [exact Hv|]. split; [exact Hc|]. split; [exact Hm|]. split; [lia|].
      exists sk. destruct (row_entries B k); [|simpl in HlB; lia]. simpl. rewrite app_nil_r. auto. }
    destruct (lookup_lt_is_Some_2 (row_cols B k) 0) as [key Hkey].
    { rewrite (cB_len B k bb be HB HkB Hbb Hbe). lia. }
    pose proof (cB_get B k bb be HB HkB Hbb Hbe _ _ Hkey) as Hg. rewrite Nat.add_0_r in Hg.
    rewrite Hg, bind_Ok. clear Hg.
    assert (Hend : forall key' loc keep, adv_res B M k row bb 0 key' loc keep ->
       (insp = 0%N -> keep = true /\ loc = bb) ->
       exists h', (if keep : bool then h_append h1 (mkEnt key' j loc) else Ok h1) = Ok h' /\
         Forall valid (hp h') /\ hcap h' = hcap h /\ hmax h' = hmax h /\
         length (hp h') <= length done + 1 /\
         exists sk, sk ++ rems (hp h') ≡ₚ rp B done ++ prods_of v (row_entries B k) /\
           Forall (fun p : prod => fst (fst p) ∉ mask) sk /\ (insp = 0%N -> sk = [])).
    { intros key' loc keep Hadv H0.
      destruct (adv_rest k v bb be 0 (mkEnt 0 j 0) key' loc keep Hk Hva HkB Hbb Hbe Hadv) as (sk' & Hsk' & Hrest).
      rewrite drop_0 in Hrest. destruct keep.
      - destruct Hrest as (Hv' & Hrest & _). cbn [erunr] in *. unfold h_append.
        destruct (Nat.ltb_spec (length (hp h1)) (hcap h1)); [|lia].
        eexists. split; [reflexivity|]. cbn [hp hcap hmax].
        split; [apply Forall_app; auto|]. split; [exact Hc|]. split; [exact Hm|].
        split; [rewrite app_length; simpl; lia|]. exists (sk ++ sk'). split.
        + rewrite (rems_perm (hp h1 ++ [mkEnt key' j loc]) (mkEnt key' j loc :: hp h1)) by (symmetry; apply Permutation_cons_append).
          rewrite rems_cons, Hrest, <- Hperm. rewrite <- !app_assoc. apply Permutation_app_head.
          rewrite (Permutation_app_comm (rems (hp h1))), <- app_assoc. reflexivity.
        + split; [apply Forall_app; auto|]. intros Hz. destruct (H0 Hz) as [_ Hloc].
          rewrite (Hsk0 Hz). simpl.
          assert (length (prods_of v (row_entries B k)) = length (erem (mkEnt key' j loc))) as Hlen'.
          { f_equal. unfold erem. cbn [erunr eloc]. rewrite Hk, Hva, Hbb, Hloc. rewrite Nat.sub_diag. reflexivity. }
          rewrite Hrest, app_length in Hlen'. destruct sk'; [reflexivity|simpl in Hlen'; lia].
      - exists h1. split; [reflexivity|]. split; [exact Hv|]. split; [exact Hc|]. split; [exact Hm|]. split; [lia|].
        exists (sk ++ sk'). split.
        + rewrite Hrest, <- Hperm, <- !app_assoc. apply Permutation_app_head, Permutation_app_comm.
        + split; [apply Forall_app; auto|]. intros Hz. destruct (H0 Hz) as [Hcon _]. discriminate. }
    destruct (N.eqb_spec insp 0) as [H0|H0].
    + apply (Hend key bb true); [|auto]. exists 0. split; [lia|]. split; [lia|]. split; [exact Hkey|]. intros; lia.
    + destruct (N.eqb_spec insp 1) as [H1'|H1'].
      * destruct (lookup_lt_is_Some_2 mask 0) as [m Hm0]; [rewrite mlen; lia|].
        destruct (skip_init_spec B M k row bb be mb me HB HM HkB HrM Hbb Hbe Hmb Hme HsM 0 m Hm0 eq_refl
          (be - bb + 1) 0 key Hkey) as (key' & loc & He' & Hadv); [lia|].
        rewrite !Nat.add_0_r in He'. rewrite He', bind_Ok.
        pose proof Hadv as (i' & _ & Hloc & Hi' & _). apply lookup_lt_Some in Hi'.
        rewrite (cB_len B k bb be HB HkB Hbb Hbe) in Hi'.
        destruct (Nat.ltb_spec loc be); [|lia]. apply (Hend key' loc true Hadv). contradiction.
      * destruct (maskStopOf_spec insp mb 0 me (nnz M) Hok) as (stop & Hstop & Hps & Hsm); [lia|lia|apply Hmn|].
        rewrite Nat.add_0_r in Hstop. rewrite Hstop.
        destruct (search_spec B M k row bb be mb me HB HM HkB HrM Hbb Hbe Hmb Hme (HsB k HkB) HsM stop
          (be - bb + (me - mb) + 1) 0 0 key Hkey Hps Hsm) as (key' & loc & keep & He' & Hadv); [intros; lia|lia|].
        rewrite !Nat.add_0_r in He'. rewrite He', bind_Ok. apply (Hend key' loc keep Hadv). contradiction.
  - rewrite bind_Ok. destruct (h_make_spec h1) as (h2 & -> & Hp2 & Hheap & Hc2 & Hm2).
    exists h2, sk. split; [reflexivity|]. split; [exact Hheap|]. split; [rewrite Hp2; exact Hv|].
    split; [lia|]. split; [lia|]. split; [rewrite (rems_perm _ _ Hp2); exact Hperm|]. auto.
Qed.

(** *** The loops, for an arbitrary action with an invariant over the consumed products *)
Section Act.
Context {S : Type} (act : hentry -> S -> res S) (sel : nat -> Prop) (J : list prod -> S -> Prop).
Hypothesis Hact : forall cs a b e s, values A !! erunr e = Some a -> values B !! eloc e = Some b -> ek e < cols B ->
  sel (ek e) -> J cs s -> (forall p, p ∈ cs -> fst (fst p) <= ek e) ->
  (forall p, p ∈ cs ++ [(ek e, a, b)] -> p ∈ all) ->
  exists s', act e s = Ok s' /\ J (cs ++ [(ek e, a, b)]) s'.
Hypothesis Hskip : forall cs c a b s, ~ sel c -> J cs s -> J (cs ++ [(c, a, b)]) s.

Record linv (h : heap) (cs sk : list prod) (s : S) : Prop := mkLinv {
  li_heap : is_heap (hp h);
  li_valid : Forall valid (hp h);
  li_perm : cs ++ sk ++ rems (hp h) ≡ₚ all;
  li_sk : Forall (fun p : prod => fst (fst p) ∉ mask) sk;
  li_le : forall p e, p ∈ cs -> e ∈ hp h -> fst (fst p) <= ek e;
  li_J : J cs s }.

(** One consumption step, common to all loops. *)
Lemma consume isp p e l0 h cs sk s : insp_ok isp (nnz M) -> (isp <> 0%N -> p < me - mb) ->
  (isp <> 0%N -> forall q c, q < p -> mask !! q = Some c -> c < ek e) ->
  hp h = e :: l0 -> linv h cs sk s -> (sel (ek e) \/ ~ sel (ek e)) ->
  forall todo : bool, (todo = true <-> sel (ek e)) ->
  exists s' h' x sk', (if todo then act e s else Ok s) = Ok s' /\
    insertNext isp A B M (mb + p) me e h = Ok h' /\ linv h' (cs ++ [x]) (sk ++ sk') s' /\ (isp = 0%N -> sk' = []) /\
    hcap h' = hcap h /\ hmax h' = hmax h /\ length (rems (hp h')) < length (rems (hp h)) /\
    (forall e', e' ∈ hp h' -> ek e <= ek e').
Proof.
  intros Hisp Hp Hlow Hh [Hheap Hval Hperm Hsk Hle HJ] Hdec todo Htodo.
  assert (Hve : valid e) by (rewrite Hh in Hval; inversion Hval; assumption).
  destruct (insertNext_spec isp p e l0 h Hisp Hp Hlow Hh Hheap Hval) as
    (h' & x & rest & sk' & Hin & Hx & Hxc & Hheap' & Hval' & Hc' & Hm' & Hperm' & Hsk' & Hsk0 & Hge).
  destruct (valid_anatomy e Hve) as (inner & a & b & bb & be & i & H1 & H2 & Hb & H3 & H4 & H5 & H6 & Hi & Hben & H7 & Hlt & Hr).
  rewrite Hr in Hx. inversion Hx; subst x rest.
  assert (Hrems : rems (hp h) = (ek e, a, b) :: prods_of a (drop (Datatypes.S i) (row_entries B inner)) ++ rems l0).
  { rewrite Hh, rems_cons, Hr. reflexivity. }
  assert (Hperm2 : (cs ++ [(ek e, a, b)]) ++ (sk ++ sk') ++ rems (hp h') ≡ₚ all).
  { rewrite <- Hperm, Hrems. rewrite <- !app_assoc. apply Permutation_app_head. simpl.
    rewrite <- Permutation_middle. apply Permutation_skip. apply Permutation_app_head. exact Hperm'. }
  assert (Hmem : forall p, p ∈ cs ++ [(ek e, a, b)] -> p ∈ all).
  { intros p' Hp'. rewrite <- Hperm2. apply elem_of_app. left. exact Hp'. }
  assert (Hle' : forall p, p ∈ cs -> fst (fst p) <= ek e).
  { intros p' Hp'. apply (Hle p' e Hp'). rewrite Hh. left. }
  assert (exists s', (if todo then act e s else Ok s) = Ok s' /\ J (cs ++ [(ek e, a, b)]) s') as (s' & Hs' & HJ').
  { destruct todo.
    - apply Hact; auto. tauto.
    - exists s. split; [reflexivity|]. apply Hskip; [|exact HJ]. intros Hs. apply Htodo in Hs. discriminate. }
  exists s', h', (ek e, a, b), sk'. split; [exact Hs'|]. split; [exact Hin|].
  split; [|split; [exact Hsk0|split; [exact Hc'|split; [exact Hm'|split; [|exact Hge]]]]].
  - split; auto.
    + apply Forall_app; auto.
    + intros p' e' Hp' He'. specialize (Hge e' He'). apply elem_of_app in Hp' as [Hp'|Hp'].
      * specialize (Hle' p' Hp'). lia.
      * apply elem_of_list_singleton in Hp'. subst p'. exact Hge.
  - rewrite Hrems. simpl. apply Permutation_length in Hperm'. rewrite !app_length in Hperm'. rewrite app_length. lia.
Qed.

Lemma top_of h : hp h <> [] -> exists e l0, hp h = e :: l0 /\ h_top h = Ok e.
Proof. intros Hn. unfold h_top. destruct (hp h) as [|e l0]; [congruence|]. exists e, l0. auto. Qed.

Lemma key_notin p key : (forall q c, q < p -> mask !! q = Some c -> c < key) ->
  (forall m, mask !! p = Some m -> key <= m) -> mask !! p <> Some key -> key ∉ mask.
Proof.
  intros Hlow Hhi Hn Hel. apply elem_of_list_lookup in Hel as [q Hq].
  destruct (lt_eq_lt_dec q p) as [[Hqp| ->]|Hqp].
  - specialize (Hlow q key Hqp Hq). lia.
  - contradiction.
  - destruct (lookup_lt_is_Some_2 mask p) as [m Hm]; [apply lookup_lt_Some in Hq; lia|].
    pose proof (SSorted_lookup_lt mask p q m key HsM Hm Hq Hqp). specialize (Hhi m Hm). lia.
Qed.

(** All pending products lie above the mask once the mask is exhausted. *)
Lemma pending_notin h e l0 : hp h = e :: l0 -> is_heap (hp h) -> Forall valid (hp h) ->
  (forall c, c ∈ mask -> c < ek e) -> Forall (fun p : prod => fst (fst p) ∉ mask) (rems (hp h)).
Proof.
  intros Hh Hheap Hval Hlow. apply Forall_forall. intros p Hp. unfold rems in Hp.
  apply elem_of_list_join in Hp as (l & Hpl & Hl). apply elem_of_list_fmap in Hl as (e' & -> & He').
  rewrite Forall_forall in Hval. pose proof (erem_ge e' p (Hval e' He') Hpl) as H1.
  assert (ek e <= ek e') as H2 by (apply (is_heap_min (hp h) e Hheap); [rewrite Hh; reflexivity|exact He']).
  intros Hin. specialize (Hlow _ Hin). lia.
Qed.

Lemma heapLoop_spec (Hsel : forall c, sel c <-> c ∈ mask) fuel : forall h cs sk s p, length (rems (hp h)) < fuel -> p <= me - mb ->
  linv h cs sk s ->
  (forall q c e, q < p -> mask !! q = Some c -> e ∈ hp h -> c < ek e) ->
  exists h' s' cs' sk', heapLoop act fuel insp A B M me (mb + p) h s = Ok (h', s') /\ hp h' = [] /\ hcap h' = hcap h /\
    hmax h' = hmax h /\
    J cs' s' /\ cs' ++ sk' ≡ₚ all /\ Forall (fun p : prod => fst (fst p) ∉ mask) sk'.
Proof.
  induction fuel as [|fuel IH]; intros h cs sk s p Hf Hp Hinv Hlow; [lia|].
  cbn [heapLoop]. destruct (Nat.eqb_spec (length (hp h)) 0) as [He|He].
  { apply nil_length_inv in He. destruct Hinv as [_ _ Hperm Hsk _ HJ]. rewrite He in Hperm.
    exists h, s, cs, sk. unfold rems in Hperm. simpl in Hperm. rewrite app_nil_r in Hperm. auto 10. }
  destruct (top_of h) as (e & l0 & Hh & Htop); [intros Hn; rewrite Hn in He; simpl in He; lia|].
  rewrite Htop, bind_Ok.
  destruct (adv_mask_spec M row mb me HM HrM Hmb Hme (ek e) (me - (mb + p) + 1) p Hp) as (p' & -> & Hp' & Hlow' & Hhi).
  { lia. }
  { intros q c Hq Hc. apply (Hlow q c e Hq Hc). rewrite Hh. left. }
  rewrite bind_Ok. destruct (Nat.leb_spec me (mb + p')) as [Hend|Hmore].
  - destruct Hinv as [Hheap Hval Hperm Hsk _ HJ].
    exists (h_clear h), s, cs, (sk ++ rems (hp h)). split; [reflexivity|]. split; [reflexivity|]. split; [reflexivity|].
    split; [reflexivity|]. split; [exact HJ|]. split; [exact Hperm|]. apply Forall_app. split; [exact Hsk|].
    apply (pending_notin h e l0 Hh Hheap Hval). intros c Hc. apply elem_of_list_lookup in Hc as [q Hq].
    apply (Hlow' q c); [|exact Hq]. apply lookup_lt_Some in Hq. rewrite mlen in Hq. lia.
  - destruct (lookup_lt_is_Some_2 mask p') as [m Hm]; [rewrite mlen; lia|].
    rewrite (mask_get M row mb me HM HrM Hmb Hme _ _ Hm), bind_Ok.
    assert (Htodo : (ek e =? m) = true <-> sel (ek e)).
    { rewrite Hsel. split.
      - intros H. apply Nat.eqb_eq in H. rewrite H. eapply elem_of_list_lookup_2; eauto.
      - intros H. destruct (Nat.eqb_spec (ek e) m) as [|Hneq]; [reflexivity|]. exfalso.
        apply (key_notin p' (ek e) Hlow' Hhi); [|exact H]. rewrite Hm. congruence. }
    destruct (consume insp p' e l0 h cs sk s Hok ltac:(lia) ltac:(intros _; exact Hlow') Hh Hinv) with (todo := ek e =? m)
      as (s' & h' & x & sk' & -> & Hins & Hinv' & _ & Hc' & Hm' & Hlen & Hge); [|exact Htodo|].
    { rewrite Hsel. destruct (decide (ek e ∈ mask)); auto. }
    rewrite bind_Ok, Hins, bind_Ok.
    destruct (IH h' (cs ++ [x]) (sk ++ sk') s' p') as (h2 & s2 & cs2 & sk2 & Hr & Hn & Hc2 & Hm2 & Hrest); [lia|lia|exact Hinv'| |].
    { intros q c e' Hq Hc He'. specialize (Hlow' q c Hq Hc). specialize (Hge e' He'). lia. }
    exists h2, s2, cs2, sk2. split; [exact Hr|]. split; [exact Hn|]. split; [lia|]. split; [lia|]. exact Hrest.
Qed.

Lemma heapLoopC_spec (Hsel : forall c, sel c <-> c ∉ mask) fuel : forall h cs s p, length (rems (hp h)) < fuel -> p <= me - mb ->
  linv h cs [] s ->
  (forall q c e, q < p -> mask !! q = Some c -> e ∈ hp h -> c < ek e) ->
  exists h' s' cs', heapLoopC act fuel A B M me (mb + p) h s = Ok (h', s') /\ hcap h' = hcap h /\
    hmax h' = hmax h /\ linv h' cs' [] s' /\ (forall c e, c ∈ mask -> e ∈ hp h' -> c < ek e).
Proof.
  induction fuel as [|fuel IH]; intros h cs s p Hf Hp Hinv Hlow; [lia|].
  cbn [heapLoopC]. destruct (Nat.eqb_spec (length (hp h)) 0) as [He|He].
  { exists h, s, cs. split; [reflexivity|]. split; [reflexivity|]. split; [reflexivity|]. split; [exact Hinv|].
    apply nil_length_inv in He. rewrite He. intros c e _ Hin. inversion Hin. }
  destruct (top_of h) as (e & l0 & Hh & Htop); [intros Hn; rewrite Hn in He; simpl in He; lia|].
  rewrite Htop, bind_Ok.
  destruct (adv_mask_spec M row mb me HM HrM Hmb Hme (ek e) (me - (mb + p) + 1) p Hp) as (p' & -> & Hp' & Hlow' & Hhi).
  { lia. }
  { intros q c Hq Hc. apply (Hlow q c e Hq Hc). rewrite Hh. left. }
  rewrite bind_Ok. destruct (Nat.leb_spec me (mb + p')) as [Hend|Hmore].
  - exists h, s, cs. split; [reflexivity|]. split; [reflexivity|]. split; [reflexivity|]. split; [exact Hinv|].
    intros c e' Hc He'. apply elem_of_list_lookup in Hc as [q Hq].
    assert (c < ek e). { apply (Hlow' q c); [|exact Hq]. apply lookup_lt_Some in Hq. rewrite mlen in Hq. lia. }
    assert (ek e <= ek e'); [|lia]. apply (is_heap_min (hp h) e (li_heap _ _ _ _ Hinv)); [rewrite Hh; reflexivity|exact He'].
  - destruct (lookup_lt_is_Some_2 mask p') as [m Hm]; [rewrite mlen; lia|].
    rewrite (mask_get M row mb me HM HrM Hmb Hme _ _ Hm), bind_Ok.
    assert (Htodo : negb (ek e =? m) = true <-> sel (ek e)).
    { rewrite Hsel. split.
      - intros H Hel. destruct (Nat.eqb_spec (ek e) m) as [|Hneq]; [discriminate|].
        apply (key_notin p' (ek e) Hlow' Hhi); [|exact Hel]. rewrite Hm. congruence.
      - intros H. destruct (Nat.eqb_spec (ek e) m) as [Heq|Hneq]; [|reflexivity]. exfalso. apply H. rewrite Heq.
        eapply elem_of_list_lookup_2; eauto. }
    destruct (consume 0 p' e l0 h cs [] s) with (todo := negb (ek e =? m))
      as (s' & h' & x & sk' & Hs' & Hins & Hinv' & Hsk0 & Hc' & Hm' & Hlen & Hge); auto.
    { left. lia. }
    all: try (intros; congruence).
    { rewrite Hsel. destruct (decide (ek e ∈ mask)); auto. }
    rewrite (Hsk0 eq_refl) in Hinv'.
    assert ((if ek e =? m then Ok s else act e s) = Ok s') as -> by (destruct (ek e =? m); exact Hs').
    rewrite bind_Ok, Hins, bind_Ok.
    destruct (IH h' (cs ++ [x]) s' p') as (h2 & s2 & cs2 & Hr & Hc2 & Hm2 & Hrest); [lia|lia|exact Hinv'| |].
    { intros q c e' Hq Hc He'. specialize (Hlow' q c Hq Hc). specialize (Hge e' He'). lia. }
    exists h2, s2, cs2. split; [exact Hr|]. split; [lia|]. split; [lia|]. exact Hrest.
Qed.
Lemma insertNext0 (x y x' y' : nat) e h : (insertNext 0 A B M x y e h) = (insertNext 0 A B M x' y' e h).
Proof. reflexivity. Qed.

Lemma heapTail_spec (Hsel : forall c, sel c <-> c ∉ mask) fuel : forall h cs s, length (rems (hp h)) < fuel ->
  linv h cs [] s -> (forall c e, c ∈ mask -> e ∈ hp h -> c < ek e) ->
  exists h' s' cs', heapTail act fuel A B M h s = Ok (h', s') /\ hp h' = [] /\ hcap h' = hcap h /\ hmax h' = hmax h /\ J cs' s' /\ cs' ≡ₚ all.
Proof.
  induction fuel as [|fuel IH]; intros h cs s Hf Hinv Hlow; [lia|].
  cbn [heapTail]. destruct (Nat.eqb_spec (length (hp h)) 0) as [He|He].
  { apply nil_length_inv in He. destruct Hinv as [_ _ Hperm _ _ HJ]. rewrite He in Hperm.
    exists h, s, cs. unfold rems in Hperm. simpl in Hperm. rewrite app_nil_r in Hperm. auto 10. }
  destruct (top_of h) as (e & l0 & Hh & Htop); [intros Hn; rewrite Hn in He; simpl in He; lia|].
  rewrite Htop, bind_Ok.
  assert (sel (ek e)) as Hs.
  { apply Hsel. intros Hin. assert (ek e < ek e); [|lia]. apply (Hlow (ek e) e Hin). rewrite Hh. left. }
  destruct (consume 0 0 e l0 h cs [] s) with (todo := true)
    as (s' & h' & x & sk' & Hs' & Hins & Hinv' & Hsk0 & Hc' & Hm' & Hlen & Hge); auto.
  { left. lia. }
  all: try (intros; congruence).
  { tauto. }
  rewrite (Hsk0 eq_refl) in Hinv'. rewrite Hs', bind_Ok, (insertNext0 0 0 (mb + 0) me), Hins, bind_Ok.
  destruct (IH h' (cs ++ [x]) s') as (h2 & s2 & cs2 & Hr & Hn & Hc2 & Hm2 & Hrest); [lia|exact Hinv'| |].
  { intros c e' Hc He'. specialize (Hge e' He'). specialize (Hlow c e Hc). rewrite Hh in Hlow.
    specialize (Hlow ltac:(left)). lia. }
  exists h2, s2, cs2. split; [exact Hr|]. split; [exact Hn|]. split; [lia|]. split; [lia|]. exact Hrest.
Qed.
End Act.
End HeapRow.
