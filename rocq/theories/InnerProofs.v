(** Correctness of the inner-product row kernels. *)
From Verif Require Import Base Spec KernelBase BaseProofs ComplProofs MsaProofs McaProofs InnerModel.

Section Dots.
Context {V : Type}.

(** Pairs of values with a common key. *)
Definition dots (la lb : list (nat * V)) : list (V * V) :=
  mjoin ((fun ka => (fun kb => (snd ka, snd kb)) <$> filter (fun kb => fst kb = fst ka) lb) <$> la).

Lemma dots_cons k a la lb :
  dots ((k, a) :: la) lb = ((fun kb => (a, snd kb)) <$> filter (fun kb => fst kb = k) lb) ++ dots la lb.
Proof. unfold dots. rewrite fmap_cons, mjoin_cons. reflexivity. Qed.

Lemma filter_key_none k (lb : list (nat * V)) : k ∉ (fst <$> lb) -> filter (fun kb => fst kb = k) lb = [].
Proof.
  induction lb as [|[k' b] lb IH]; intros Hn; [reflexivity|].
  rewrite fmap_cons, not_elem_of_cons in Hn. destruct Hn as [Hne Hn]. rewrite filter_cons.
  rewrite decide_False; [apply IH, Hn|]. simpl in *. congruence.
Qed.

Lemma dots_skip_a k a la lb : k ∉ (fst <$> lb) -> dots ((k, a) :: la) lb = dots la lb.
Proof. intros Hn. rewrite dots_cons, filter_key_none by exact Hn. reflexivity. Qed.

Lemma dots_skip_b k b la lb : k ∉ (fst <$> la) -> dots la ((k, b) :: lb) = dots la lb.
Proof.
  induction la as [|[k' a] la IH]; intros Hn; [reflexivity|].
  rewrite fmap_cons, not_elem_of_cons in Hn. destruct Hn as [Hne Hn].
  rewrite !dots_cons, IH by exact Hn. rewrite filter_cons, decide_False; [reflexivity|]. exact Hne.
Qed.

Lemma dots_match k a b la lb : k ∉ (fst <$> la) -> k ∉ (fst <$> lb) ->
  dots ((k, a) :: la) ((k, b) :: lb) = (a, b) :: dots la lb.
Proof.
  intros Ha Hb. rewrite dots_cons, dots_skip_b by exact Ha.
  rewrite filter_cons, decide_True by reflexivity. rewrite filter_key_none by exact Hb. reflexivity.
Qed.

Lemma dots_nil_r la : dots la [] = [].
Proof. induction la as [|[k a] la IH]; [reflexivity|]. rewrite dots_cons, IH. reflexivity. Qed.

Lemma sorted_drop_notin (l : list (nat * V)) i k v :
  StronglySorted lt (fst <$> l) -> l !! i = Some (k, v) ->
  forall k', k' <= k -> k' ∉ (fst <$> drop (Datatypes.S i) l).
Proof.
  intros Hs Hi k' Hk Hin. apply elem_of_list_lookup in Hin as [q Hq].
  rewrite fmap_drop, lookup_drop in Hq.
  assert (k < k'); [|lia]. eapply (SSorted_lookup_lt (fst <$> l) i); [exact Hs| |exact Hq|lia].
  rewrite list_lookup_fmap, Hi. reflexivity.
Qed.

Context (mul add : V -> V -> V).
Let pm (p : V * V) : V := mul (fst p) (snd p).

Definition racc (s : option V) (l : list V) : option V :=
  match s with Some v => Some (fold_left add l v) | None => sum1 add l end.

Lemma racc_cons s x l : racc s (x :: l) = racc (Some (match s with Some v => add v x | None => x end)) l.
Proof. destruct s; reflexivity. Qed.

Section Loop.
Variables (A : csr V) (B : csc V) (row col ab ae bb be : nat).
Hypotheses (HA : wf A) (HB : wf_csc B) (Hrow : row < rows A) (Hcol : col < c_cols B).
Hypotheses (Hab : rowptr A !! row = Some ab) (Hae : rowptr A !! (row + 1) = Some ae).
Hypotheses (Hbb : colptr B !! col = Some bb) (Hbe : colptr B !! (col + 1) = Some be).
Hypotheses (HsA : StronglySorted lt (row_cols A row)) (HsB : StronglySorted lt (fst <$> col_entries B col)).
Let la := row_entries A row.
Let lb := col_entries B col.

Lemma la_len : length la = ae - ab.
Proof. apply row_entries_length; auto. Qed.
Lemma lb_len : length lb = be - bb.
Proof. apply (row_entries_length (csc_tr B)); auto. Qed.

Lemma la_get i k a : la !! i = Some (k, a) ->
  i < ae - ab /\ get (colids A) (ab + i) = Ok k /\ get (values A) (ab + i) = Ok a.
Proof.
  intros H. destruct (row_entries_lookup A row ab ae i k a HA Hrow Hab Hae H) as (H1 & H2 & H3).
  auto using get_Some.
Qed.
Lemma lb_get i k b : lb !! i = Some (k, b) ->
  i < be - bb /\ get (rowids B) (bb + i) = Ok k /\ get (c_values B) (bb + i) = Ok b.
Proof.
  intros H. destruct (row_entries_lookup (csc_tr B) col bb be i k b HB Hcol Hbb Hbe H) as (H1 & H2 & H3).
  auto using get_Some.
Qed.

Lemma innerDot_spec fuel : forall i p s, i < ae - ab -> p < be - bb -> (ae - ab - i) + (be - bb - p) <= fuel ->
  innerDot mul add fuel A B ae be (ab + i) (bb + p) s = Ok (racc s (pm <$> dots (drop i la) (drop p lb))).
Proof.
  induction fuel as [|fuel IH]; intros i p s Hi Hp Hf; [lia|].
  destruct (lookup_lt_is_Some_2 la i) as [[ka a] Hla]; [rewrite la_len; lia|].
  destruct (lookup_lt_is_Some_2 lb p) as [[kb b] Hlb]; [rewrite lb_len; lia|].
  destruct (la_get _ _ _ Hla) as (_ & Hka & Hva). destruct (lb_get _ _ _ Hlb) as (_ & Hkb & Hvb).
  cbn [innerDot]. rewrite Hka, bind_Ok, Hkb, bind_Ok.
  rewrite (drop_S la _ _ Hla), (drop_S lb _ _ Hlb).
  pose proof (sorted_drop_notin la i ka a HsA Hla) as Hna.
  pose proof (sorted_drop_notin lb p kb b HsB Hlb) as Hnb.
  assert (Hea : ab + i + 1 = ae -> drop (Datatypes.S i) la = []).
  { intros He. apply drop_ge. rewrite la_len. lia. }
  assert (Heb : bb + p + 1 = be -> drop (Datatypes.S p) lb = []).
  { intros He. apply drop_ge. rewrite lb_len. lia. }
  destruct (Nat.ltb_spec ka kb) as [Hlt|Hge].
  - rewrite dots_skip_a.
    2:{ rewrite fmap_cons, not_elem_of_cons. simpl. split; [lia|]. apply Hnb. lia. }
    destruct (Nat.eqb_spec (ab + i + 1) ae) as [He|He].
    + rewrite Hea by exact He. destruct s; reflexivity.
    + replace (ab + i + 1) with (ab + Datatypes.S i) by lia. rewrite IH by lia.
      rewrite (drop_S lb _ _ Hlb). reflexivity.
  - destruct (Nat.ltb_spec kb ka) as [Hlt|Hge'].
    + rewrite dots_skip_b.
      2:{ rewrite fmap_cons, not_elem_of_cons. simpl. split; [lia|]. apply Hna. lia. }
      destruct (Nat.eqb_spec (bb + p + 1) be) as [He|He].
      * rewrite Heb by exact He. rewrite dots_nil_r. destruct s; reflexivity.
      * replace (bb + p + 1) with (bb + Datatypes.S p) by lia. rewrite IH by lia.
        rewrite (drop_S la _ _ Hla). reflexivity.
    + assert (kb = ka) as -> by lia. rewrite Hva, bind_Ok, Hvb, bind_Ok.
      rewrite dots_match by (first [apply Hna; lia|apply Hnb; lia]). cbv zeta.
      rewrite fmap_cons, racc_cons. unfold pm at 1. cbn [fst snd].
      destruct (Nat.eqb_spec (ab + i + 1) ae) as [He|He].
      { rewrite Hea by exact He. destruct s; reflexivity. }
      destruct (Nat.eqb_spec (bb + p + 1) be) as [He'|He'].
      { rewrite Heb by exact He'. rewrite dots_nil_r. destruct s; reflexivity. }
      replace (ab + i + 1) with (ab + Datatypes.S i) by lia.
      replace (bb + p + 1) with (bb + Datatypes.S p) by lia. apply IH; lia.
Qed.

Lemma innerSym_spec fuel : forall i p, i < ae - ab -> p < be - bb -> (ae - ab - i) + (be - bb - p) <= fuel ->
  innerSym fuel A B ae be (ab + i) (bb + p) =
    Ok (match dots (drop i la) (drop p lb) with [] => false | _ => true end).
Proof.
  induction fuel as [|fuel IH]; intros i p Hi Hp Hf; [lia|].
  destruct (lookup_lt_is_Some_2 la i) as [[ka a] Hla]; [rewrite la_len; lia|].
  destruct (lookup_lt_is_Some_2 lb p) as [[kb b] Hlb]; [rewrite lb_len; lia|].
  destruct (la_get _ _ _ Hla) as (_ & Hka & Hva). destruct (lb_get _ _ _ Hlb) as (_ & Hkb & Hvb).
  cbn [innerSym]. rewrite Hka, bind_Ok, Hkb, bind_Ok.
  rewrite (drop_S la _ _ Hla), (drop_S lb _ _ Hlb).
  pose proof (sorted_drop_notin la i ka a HsA Hla) as Hna.
  pose proof (sorted_drop_notin lb p kb b HsB Hlb) as Hnb.
  assert (Hea : ab + i + 1 = ae -> drop (Datatypes.S i) la = []).
  { intros He. apply drop_ge. rewrite la_len. lia. }
  assert (Heb : bb + p + 1 = be -> drop (Datatypes.S p) lb = []).
  { intros He. apply drop_ge. rewrite lb_len. lia. }
  destruct (Nat.ltb_spec ka kb) as [Hlt|Hge].
  - rewrite dots_skip_a.
    2:{ rewrite fmap_cons, not_elem_of_cons. simpl. split; [lia|]. apply Hnb. lia. }
    destruct (Nat.eqb_spec (ab + i + 1) ae) as [He|He].
    + rewrite Hea by exact He. reflexivity.
    + replace (ab + i + 1) with (ab + Datatypes.S i) by lia. rewrite IH by lia.
      rewrite (drop_S lb _ _ Hlb). reflexivity.
  - destruct (Nat.ltb_spec kb ka) as [Hlt|Hge'].
    + rewrite dots_skip_b.
      2:{ rewrite fmap_cons, not_elem_of_cons. simpl. split; [lia|]. apply Hna. lia. }
      destruct (Nat.eqb_spec (bb + p + 1) be) as [He|He].
      * rewrite Heb by exact He. rewrite dots_nil_r. reflexivity.
      * replace (bb + p + 1) with (bb + Datatypes.S p) by lia. rewrite IH by lia.
        rewrite (drop_S la _ _ Hla). reflexivity.
    + assert (kb = ka) as -> by lia.
      rewrite dots_match by (first [apply Hna; lia|apply Hnb; lia]). reflexivity.
Qed.
End Loop.

(** The pairs of the dot product are the products of the specification. *)
Lemma NoDup_fst_filter (l : list (nat * V)) j v : NoDup (fst <$> l) -> (j, v) ∈ l ->
  filter (fun cb => fst cb = j) l = [(j, v)].
Proof.
  induction l as [|[c b] l IH]; intros Hnd Hin; [inversion Hin|].
  rewrite fmap_cons, NoDup_cons in Hnd. destruct Hnd as [Hn Hnd].
  rewrite filter_cons. apply elem_of_cons in Hin as [He|Hin].
  - inversion He; subst. rewrite decide_True by reflexivity. rewrite filter_key_none by exact Hn. reflexivity.
  - rewrite decide_False; [apply IH; assumption|]. simpl. intros ->. apply Hn.
    apply elem_of_list_fmap. exists (j, v). auto.
Qed.

Lemma dots_products (B : csr V) (Bc : csc V) la j :
  distinct_rows B -> same_matrix B Bc -> j < cols B -> NoDup (fst <$> col_entries Bc j) ->
  (forall k a, (k, a) ∈ la -> k < rows B) ->
  pm <$> dots la (col_entries Bc j) = products mul la (row_entries B) j.
Proof.
  intros Hd Hs Hj Hnd. unfold products. induction la as [|[k a] la IH]; intros Hr; [reflexivity|].
  rewrite dots_cons, fmap_cons, mjoin_cons, fmap_app. f_equal.
  2:{ apply IH. intros k' a' Hin. apply (Hr k' a'). right. exact Hin. }
  assert (k < rows B) as Hk by (apply (Hr k a); left). cbn [fst snd].
  destruct (decide (j ∈ row_cols B k)) as [Hin|Hin].
  - unfold row_cols in Hin. apply elem_of_list_fmap in Hin as ([j' b] & Hj' & Hin). simpl in Hj'. subst j'.
    rewrite (NoDup_fst_filter (row_entries B k) j b (Hd k Hk) Hin).
    apply (sm_entries _ _ Hs) in Hin; auto. rewrite (NoDup_fst_filter _ k b Hnd Hin). reflexivity.
  - rewrite (filter_key_none j (row_entries B k)) by exact Hin.
    rewrite (filter_key_none k (col_entries Bc j)); [reflexivity|].
    intros Hin'. apply elem_of_list_fmap in Hin' as ([k' b] & Hk' & Hin'). simpl in Hk'. subst k'.
    apply Hin. apply (sm_entries _ _ Hs) in Hin'; auto. unfold row_cols. apply elem_of_list_fmap.
    exists (j, b). auto.
Qed.

Lemma spec_row_omap (A B M : csr V) i : spec_row mul add A B M i =
  omap (fun j => (fun v => (j, v)) <$> entry mul add (row_entries A i) (row_entries B) j) (row_cols M i).
Proof. reflexivity. Qed.

Theorem innerNumericRow_correct (A B M : csr V) (Bc : csc V) row dn cap :
  compatible A B M -> wf_csc Bc -> same_matrix B Bc -> row < rows A ->
  StronglySorted lt (row_cols A row) -> distinct_rows B -> sorted_cols Bc ->
  length dn + length (spec_row mul add A B M row) <= cap ->
  innerNumericRow mul add A Bc M row (mkOut dn cap) = Ok (mkOut (dn ++ spec_row mul add A B M row) cap).
Proof.
  intros [HA HB HM HAB HMA HMB] HBc Hsm Hrow HsA Hd HsB.
  unfold innerNumericRow. rewrite mask_loop_foldM by (auto; lia). rewrite spec_row_omap.
  assert (Hrange : forall c, c ∈ row_cols M row -> c < cols B).
  { intros c Hc. rewrite <- HMB. eapply row_cols_range; eauto. }
  destruct (row_bounds_wf A row HA Hrow) as (ab & ae & Hab & Hae & Hle & _ & Hrb). rewrite Hrb.
  revert dn. induction (row_cols M row) as [|c mask IH]; intros dn Hcap.
  { simpl. rewrite app_nil_r. reflexivity. }
  rewrite foldM_cons.
  assert (c < cols B) as Hc by (apply Hrange; left).
  assert (c < c_cols Bc) as Hc' by (rewrite <- (sm_cols _ _ Hsm); exact Hc).
  rewrite bind_Ok.
  destruct (row_bounds_wf (csc_tr Bc) c HBc Hc') as (bb & be & Hbb & Hbe & Hle' & _ & Hrb').
  cbn [csc_tr rowptr] in Hbb, Hbe.
  assert (Hstep : forall e : option V, e = entry mul add (row_entries A row) (row_entries B) c ->
    (s' <- match e with Some v => emit (mkOut dn cap) c v | None => Ok (mkOut dn cap) end ;;
     foldM (fun s c0 => ' (ab0, ae0) <- Ok (ab, ae);;
       (if ab0 =? ae0 then Ok s else
         ' (bb0, be0) <- col_bounds Bc c0;;
         (if bb0 =? be0 then Ok s else
           r <- innerDot mul add (ae0 - ab0 + (be0 - bb0)) A Bc ae0 be0 ab0 bb0 None;;
           match r with Some v => emit s c0 v | None => Ok s end))) mask s') =
    Ok (mkOut (dn ++ omap (fun j => (fun v => (j, v)) <$> entry mul add (row_entries A row) (row_entries B) j) (c :: mask)) cap)).
  { intros e He. cbn [omap list_omap]. cbn [omap list_omap] in Hcap. rewrite <- He in Hcap |- *. destruct e as [v|]; simpl in Hcap |- *.
    - rewrite emit_Ok by (simpl; lia). rewrite bind_Ok. cbn [o_done o_cap].
      rewrite IH.
      + rewrite <- app_assoc. reflexivity.
      + intros c0 Hc0. apply Hrange. right. exact Hc0.
      + rewrite app_length. simpl length. unfold omap in Hcap |- *. lia.
    - rewrite IH; [reflexivity| |exact Hcap]. intros c0 Hc0. apply Hrange. right. exact Hc0. }
  pose proof (row_entries_length A row ab ae HA Hrow Hab Hae) as HlA.
  pose proof (row_entries_length (csc_tr Bc) c bb be HBc Hc' Hbb Hbe) as HlB. fold (col_entries Bc c) in HlB.
  assert (Hprod : pm <$> dots (row_entries A row) (col_entries Bc c) = products mul (row_entries A row) (row_entries B) c).
  { apply dots_products; auto.
    - apply SSorted_NoDup. apply HsB, Hc'.
    - intros k a Hin. rewrite <- HAB. eapply row_entries_range; eauto. }
  destruct (Nat.eqb_spec ab ae) as [He|He].
  { apply (Hstep None). unfold entry. rewrite <- Hprod.
    destruct (row_entries A row); [reflexivity|simpl in HlA; lia]. }
  assert (col_bounds Bc c = Ok (bb, be)) as ->.
  { unfold col_bounds. rewrite (get_Some _ _ _ Hbb), bind_Ok, (get_Some _ _ _ Hbe). reflexivity. }
  rewrite bind_Ok.
  destruct (Nat.eqb_spec bb be) as [He'|He'].
  { apply (Hstep None). unfold entry. rewrite <- Hprod.
    destruct (col_entries Bc c); [rewrite dots_nil_r; reflexivity|simpl in HlB; lia]. }
  pose proof (innerDot_spec A Bc row c ab ae bb be HA HBc Hrow Hc' Hab Hae Hbb Hbe HsA (HsB c Hc')
    (ae - ab + (be - bb)) 0 0 None) as Hdot.
  rewrite !Nat.add_0_r in Hdot. rewrite Hdot by lia. rewrite bind_Ok.
  apply (Hstep (racc None (pm <$> dots (drop 0 (row_entries A row)) (drop 0 (col_entries Bc c))))).
  rewrite !drop_0. rewrite Hprod. reflexivity.
Qed.

Theorem innerSymbolicRow_correct (A B M : csr V) (Bc : csc V) row :
  compatible A B M -> wf_csc Bc -> same_matrix B Bc -> row < rows A ->
  StronglySorted lt (row_cols A row) -> distinct_rows B -> sorted_cols Bc ->
  innerSymbolicRow A Bc M row = Ok (length (spec_row mul add A B M row)).
Proof.
  intros [HA HB HM HAB HMA HMB] HBc Hsm Hrow HsA Hd HsB.
  unfold innerSymbolicRow. rewrite mask_loop_foldM by (auto; lia). rewrite spec_row_omap.
  assert (Hrange : forall c, c ∈ row_cols M row -> c < cols B).
  { intros c Hc. rewrite <- HMB. eapply row_cols_range; eauto. }
  destruct (row_bounds_wf A row HA Hrow) as (ab & ae & Hab & Hae & Hle & _ & Hrb). rewrite Hrb.
  match goal with |- foldM ?f ?l 0 = Ok ?r => enough (forall n, foldM f l n = Ok (n + r)) as Hall by exact (Hall 0) end.
  induction (row_cols M row) as [|c mask IH]; intros n.
  { simpl. rewrite Nat.add_0_r. reflexivity. }
  rewrite foldM_cons.
  assert (c < cols B) as Hc by (apply Hrange; left).
  assert (c < c_cols Bc) as Hc' by (rewrite <- (sm_cols _ _ Hsm); exact Hc).
  rewrite bind_Ok.
  destruct (row_bounds_wf (csc_tr Bc) c HBc Hc') as (bb & be & Hbb & Hbe & Hle' & _ & Hrb').
  cbn [csc_tr rowptr] in Hbb, Hbe.
  pose proof (row_entries_length A row ab ae HA Hrow Hab Hae) as HlA.
  pose proof (row_entries_length (csc_tr Bc) c bb be HBc Hc' Hbb Hbe) as HlB. fold (col_entries Bc c) in HlB.
  assert (Hprod : pm <$> dots (row_entries A row) (col_entries Bc c) = products mul (row_entries A row) (row_entries B) c).
  { apply dots_products; auto.
    - apply SSorted_NoDup. apply HsB, Hc'.
    - intros k a Hin. rewrite <- HAB. eapply row_entries_range; eauto. }
  assert (Hstep : forall hit : bool, hit = match dots (row_entries A row) (col_entries Bc c) with [] => false | _ => true end ->
    (s' <- Ok (if hit then n + 1 else n) ;;
     foldM (fun s c0 => ' (ab0, ae0) <- Ok (ab, ae);;
       (if ab0 =? ae0 then Ok s else
         ' (bb0, be0) <- col_bounds Bc c0;;
         (if bb0 =? be0 then Ok s else
           hit <- innerSym (ae0 - ab0 + (be0 - bb0)) A Bc ae0 be0 ab0 bb0;;
           Ok (if hit : bool then s + 1 else s)))) mask s') =
    Ok (n + length (omap (fun j => (fun v => (j, v)) <$> entry mul add (row_entries A row) (row_entries B) j) (c :: mask)))).
  { intros hit Hh. rewrite bind_Ok. rewrite IH by (intros c0 Hc0; apply Hrange; right; exact Hc0).
    f_equal. cbn [omap list_omap]. rewrite Hh.
    assert (Hx : match dots (row_entries A row) (col_entries Bc c) with [] => false | _ => true end =
      match entry mul add (row_entries A row) (row_entries B) c with None => false | _ => true end).
    { unfold entry. rewrite <- Hprod. destruct (dots (row_entries A row) (col_entries Bc c)); reflexivity. }
    rewrite Hx. destruct (entry mul add (row_entries A row) (row_entries B) c); simpl; unfold omap; lia. }
  destruct (Nat.eqb_spec ab ae) as [He|He].
  { apply (Hstep false). destruct (row_entries A row); [reflexivity|simpl in HlA; lia]. }
  assert (col_bounds Bc c = Ok (bb, be)) as ->.
  { unfold col_bounds. rewrite (get_Some _ _ _ Hbb), bind_Ok, (get_Some _ _ _ Hbe). reflexivity. }
  rewrite bind_Ok.
  destruct (Nat.eqb_spec bb be) as [He'|He'].
  { apply (Hstep false). destruct (col_entries Bc c); [rewrite dots_nil_r; reflexivity|simpl in HlB; lia]. }
  pose proof (innerSym_spec A Bc row c ab ae bb be HA HBc Hrow Hc' Hab Hae Hbb Hbe HsA (HsB c Hc')
    (ae - ab + (be - bb)) 0 0) as Hdot.
  rewrite !Nat.add_0_r in Hdot. rewrite Hdot by lia. rewrite bind_Ok.
  apply Hstep. rewrite !drop_0. reflexivity.
Qed.
End Dots.
