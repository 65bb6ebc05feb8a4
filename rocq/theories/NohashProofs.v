(** Proofs about innerSpGEMM_nohash. *)
From stdpp Require Import numbers.
From Verif Require Import NohashModel InnerModel BaseProofs ConcProofs ComplProofs ScanProofs WorkProofs Assemble DriverBase TwoPassProofs BinProofs InnerProofs IsectProofs McaProofs.
From Verif Require Import Base Spec.

Lemma evS_in {V} off (l : list (nat * V)) e : e ∈ evS off l <->
  exists k x, l !! k = Some x /\ (e = EWr (tIds, off + k) (TN (fst x)) \/ e = EWr (tVals, off + k) (TV (snd x))).
Proof.
  apply (evS_elem (S := unit) (fun _ => []) (fun _ => Ok tt) (fun _ _ => Err OutOfFuel) [] (fun _ _ => False)).
  - intros t its Ht. rewrite lookup_nil in Ht. discriminate.
  - intros t its i s Ht. rewrite lookup_nil in Ht. discriminate.
Qed.
Lemma storeRow_runs {V} (l : list (nat * V)) (off : nat) (m : gmap loc (tcell V)) :
  (forall k, k < length l -> is_Some (m !! (tIds, off + k)) /\ is_Some (m !! (tVals, off + k))) ->
  exists mf, solo m (storeRow off l) (evS off l) tt mf.
Proof.
  apply (storeRow_solo (S := unit) (fun _ => []) (fun _ => Ok tt) (fun _ _ => Err OutOfFuel) [] (fun _ _ => False)).
  - intros t its Ht. rewrite lookup_nil in Ht. discriminate.
  - intros t its i s Ht. rewrite lookup_nil in Ht. discriminate.
Qed.

(** ** One row *)
Section Row.
Context {V : Type} (zero : V) (mul add : V -> V -> V).
Local Notation pm := (fun p : V * V => mul (fst p) (snd p)).

(** The sum of the products, started at [zero]; nothing when there are none. *)
Definition dotRow (A B M : csr V) (i : nat) : list (nat * V) :=
  omap (fun j => match products mul (row_entries A i) (row_entries B) j with
                 | [] => None | ps => Some (j, fold_left add ps zero) end) (row_cols M i).

Section Loop.
Variables (A : csr V) (B : csc V) (row col ab ae bb be : nat).
Hypotheses (HA : wf A) (HB : wf_csc B) (Hrow : row < rows A) (Hcol : col < c_cols B).
Hypotheses (Hab : rowptr A !! row = Some ab) (Hae : rowptr A !! (row + 1) = Some ae).
Hypotheses (Hbb : colptr B !! col = Some bb) (Hbe : colptr B !! (col + 1) = Some be).
Hypotheses (HsA : StronglySorted lt (row_cols A row)) (HsB : StronglySorted lt (fst <$> col_entries B col)).
Hypotheses (Hlea : ab <= ae) (Hleb : bb <= be).
Let la := row_entries A row.
Let lb := col_entries B col.

Lemma nhLoop_spec fuel : forall i p s, i <= ae - ab -> p <= be - bb -> (ae - ab - i) + (be - bb - p) < fuel ->
  nhLoop mul add fuel A B ae be (ab + i) (bb + p) s =
    Ok (let ps := pm <$> dots (drop i la) (drop p lb) in (fold_left add ps (fst s), match ps with [] => snd s | _ => true end)).
Proof.
  induction fuel as [|fuel IH]; intros i p s Hi Hp Hf; [lia|]. cbn [nhLoop].
  pose proof (la_len A row ab ae HA Hrow Hab Hae) as LA. pose proof (lb_len B col bb be HB Hcol Hbb Hbe) as LB. fold la in LA. fold lb in LB.
  destruct (Nat.ltb_spec (ab + i) ae) as [Hia|Hia].
  2:{ rewrite drop_ge by (fold la; lia). destruct s. reflexivity. }
  destruct (Nat.ltb_spec (bb + p) be) as [Hib|Hib].
  2:{ rewrite (drop_ge lb) by lia. rewrite dots_nil_r. destruct s. reflexivity. }
  cbn [andb].
  destruct (lookup_lt_is_Some_2 la i) as [[ka a] Hla]; [lia|].
  destruct (lookup_lt_is_Some_2 lb p) as [[kb b] Hlb]; [lia|].
  destruct (la_get A row ab ae HA Hrow Hab Hae _ _ _ Hla) as (_ & Hka & Hva). destruct (lb_get B col bb be HB Hcol Hbb Hbe _ _ _ Hlb) as (_ & Hkb & Hvb).
  rewrite Hka, bind_Ok, Hkb, bind_Ok.
  rewrite (drop_S la _ _ Hla), (drop_S lb _ _ Hlb).
  pose proof (sorted_drop_notin la i ka a HsA Hla) as Hna.
  pose proof (sorted_drop_notin lb p kb b HsB Hlb) as Hnb.
  replace (ab + i + 1) with (ab + Datatypes.S i) by lia. replace (bb + p + 1) with (bb + Datatypes.S p) by lia.
  destruct (Nat.ltb_spec ka kb) as [Hlt|Hge].
  - rewrite dots_skip_a by (rewrite fmap_cons, not_elem_of_cons; simpl; split; [lia|]; apply Hnb; lia).
    rewrite IH by lia. rewrite (drop_S lb _ _ Hlb). reflexivity.
  - destruct (Nat.ltb_spec kb ka) as [Hlt|Hge'].
    + rewrite dots_skip_b by (rewrite fmap_cons, not_elem_of_cons; simpl; split; [lia|]; apply Hna; lia).
      rewrite IH by lia. rewrite (drop_S la _ _ Hla). reflexivity.
    + assert (kb = ka) as -> by lia. rewrite Hva, bind_Ok, Hvb, bind_Ok.
      rewrite dots_match by (first [apply Hna; lia|apply Hnb; lia]). rewrite IH by lia. cbv zeta. rewrite fmap_cons. cbn [fst snd fold_left].
      destruct (pm <$> dots (drop (Datatypes.S i) la) (drop (Datatypes.S p) lb)); reflexivity.
Qed.
End Loop.

Lemma nhRow_ok (A B M : csr V) (Bc : csc V) row :
  compatible A B M -> wf_csc Bc -> same_matrix B Bc -> row < rows A ->
  StronglySorted lt (row_cols A row) -> distinct_rows B -> sorted_cols Bc ->
  nhRow zero mul add A Bc M row = Ok (dotRow A B M row).
Proof.
  intros [HA HB HM HAB HMA HMB] HBc Hsm Hrow HsA Hd HsB.
  unfold nhRow. rewrite mask_loop_foldM by (auto; lia). unfold dotRow.
  assert (Hrange : forall c, c ∈ row_cols M row -> c < cols B).
  { intros c Hc. rewrite <- HMB. eapply row_cols_range; eauto. }
  destruct (row_bounds_wf A row HA Hrow) as (ab & ae & Hab & Hae & Hle & _ & Hrb). rewrite Hrb.
  match goal with |- foldM ?F _ _ = Ok (omap ?f _) => enough (H : forall l0, foldM F (row_cols M row) l0 = Ok (l0 ++ omap f (row_cols M row))) by exact (H []) end.
  induction (row_cols M row) as [|c mask IH]; intros l0.
  { simpl. rewrite app_nil_r. reflexivity. }
  rewrite foldM_cons.
  assert (c < cols B) as Hc by (apply Hrange; left).
  assert (c < c_cols Bc) as Hc' by (rewrite <- (sm_cols _ _ Hsm); exact Hc).
  rewrite bind_Ok.
  destruct (row_bounds_wf (csc_tr Bc) c HBc Hc') as (bb & be & Hbb & Hbe & Hle' & _ & Hrb').
  cbn [csc_tr rowptr] in Hbb, Hbe.
  assert (col_bounds Bc c = Ok (bb, be)) as ->.
  { unfold col_bounds. rewrite (get_Some _ _ _ Hbb), bind_Ok, (get_Some _ _ _ Hbe). reflexivity. }
  rewrite bind_Ok.
  pose proof (nhLoop_spec A Bc row c ab ae bb be HA HBc Hrow Hc' Hab Hae Hbb Hbe HsA (HsB c Hc') Hle Hle' (Datatypes.S (ae - ab + (be - bb))) 0 0 (zero, false)) as Hdot.
  rewrite !Nat.add_0_r in Hdot. rewrite Hdot by lia. rewrite bind_Ok, !drop_0. cbv zeta.
  assert (Hprod : pm <$> dots (row_entries A row) (col_entries Bc c) = products mul (row_entries A row) (row_entries B) c).
  { apply dots_products; auto.
    - apply SSorted_NoDup. apply HsB, Hc'.
    - intros k a Hin. rewrite <- HAB. eapply row_entries_range; eauto. }
  rewrite Hprod. cbn [fst snd omap list_omap].
  destruct (products mul (row_entries A row) (row_entries B) c) as [|x ps].
  - rewrite bind_Ok. apply IH. intros c0 H0. apply Hrange. right. exact H0.
  - rewrite bind_Ok, IH by (intros c0 H0; apply Hrange; right; exact H0). rewrite <- app_assoc. reflexivity.
Qed.

Lemma dotRow_length A B M i : length (dotRow A B M i) <= length (row_entries M i).
Proof.
  rewrite <- row_cols_length. unfold dotRow. induction (row_cols M i) as [|c l IH]; [simpl; lia|].
  cbn [omap list_omap]. destruct (products mul (row_entries A i) (row_entries B) c); cbn [length]; unfold omap in IH |- *; lia.
Qed.
Lemma dotRow_spec A B M i : (forall x, add zero x = x) -> dotRow A B M i = spec_row mul add A B M i.
Proof.
  intros Hz. rewrite spec_row_omap. unfold dotRow. apply list_omap_ext, Forall2_same_length_lookup_2; [reflexivity|].
  intros k c c' H1 H2. assert (c = c') as <- by congruence. unfold entry, sum1.
  destruct (products mul (row_entries A i) (row_entries B) c) as [|x ps]; [reflexivity|]. simpl. rewrite Hz. reflexivity.
Qed.
End Row.

(** ** Cutting the rows *)
Section Cut.
Context (n nt : nat).
Definition nhCut (t : nat) : nat := Nat.min ((n + nt - 1) / nt * t) n.

Lemma nhCut_0 : nhCut 0 = 0.
Proof. unfold nhCut. lia. Qed.
Lemma nhCut_le t u : t <= u -> nhCut t <= nhCut u.
Proof. intros H. unfold nhCut. pose proof (Nat.mul_le_mono_l t u ((n + nt - 1) / nt) H). lia. Qed.
Lemma nhCut_n t : nhCut t <= n.
Proof. unfold nhCut. lia. Qed.
Lemma nhCut_uniq t u p : nhCut t <= p < nhCut (t + 1) -> nhCut u <= p < nhCut (u + 1) -> t = u.
Proof.
  intros H1 H2. destruct (Nat.lt_trichotomy t u) as [H|[H|H]]; [|exact H|].
  - pose proof (nhCut_le (t + 1) u ltac:(lia)). lia.
  - pose proof (nhCut_le (u + 1) t ltac:(lia)). lia.
Qed.
Lemma nhCut_nt : 1 <= nt -> nhCut nt = n.
Proof.
  intros Hnt.  unfold nhCut. pose proof (Nat.div_mod (n + nt - 1) nt ltac:(lia)). pose proof (Nat.mod_upper_bound (n + nt - 1) nt ltac:(lia)). lia.
Qed.
Lemma nhCut_of i : 1 <= nt -> i < n -> exists t, t < nt /\ nhCut t <= i < nhCut (t + 1).
Proof.
  intros Hnt Hi. assert (H : forall k, i < nhCut k -> exists t, t < k /\ nhCut t <= i < nhCut (t + 1)).
  { induction k as [|k IH]; intros Hk; [rewrite nhCut_0 in Hk; lia|].
    destruct (Nat.lt_ge_cases i (nhCut k)) as [H|H].
    - destruct (IH H) as (t & Ht & E). exists t. split; [lia|exact E].
    - exists k. replace (k + 1) with (S k) by lia. split; [lia|]. split; [exact H|exact Hk]. }
  apply H. rewrite nhCut_nt by exact Hnt. exact Hi.
Qed.

Context (W : nat).
Hypothesis Hnt : 1 <= nt.
Hypothesis HW : n + nt <= W.
Lemma nhPer_eq : nhPer W n nt = (n + nt - 1) / nt.
Proof. unfold nhPer. rewrite Nat.mod_small by lia. reflexivity. Qed.
Lemma nhPer_mul t : t <= nt -> (nhPer W n nt * t) mod W = (n + nt - 1) / nt * t.
Proof.
  intros Ht. rewrite nhPer_eq. apply Nat.mod_small.
  pose proof (Nat.mul_div_le (n + nt - 1) nt ltac:(lia)). pose proof (Nat.mul_le_mono_l t nt ((n + nt - 1) / nt) Ht). lia.
Qed.
Lemma nhRange t : t < nt ->
  let start := (nhPer W n nt * t) mod W in
  let stop := Nat.min ((nhPer W n nt * (t + 1)) mod W) n in
  seq start (stop - start) = seq (nhCut t) (nhCut (t + 1) - nhCut t) /\
  (seq start (stop - start) <> [] -> start = nhCut t).
Proof.
  intros Ht. cbv zeta. rewrite !nhPer_mul by lia. fold (nhCut (t + 1)). unfold nhCut.
  set (a := (n + nt - 1) / nt * t). set (b := (n + nt - 1) / nt * (t + 1)).
  destruct (Nat.le_gt_cases a n) as [H|H].
  - rewrite (Nat.min_l a n) by exact H. auto.
  - replace (Nat.min b n - a) with 0 by lia. replace (Nat.min b n - Nat.min a n) with 0 by lia. split; [reflexivity|]. simpl. contradiction.
Qed.
End Cut.

(** ** The parallel region *)
Section Region.
Context {V : Type} (dflt zero : V) (mul add : V -> V -> V) (W nt : nat) (A : csr V) (Bc : csc V) (M : csr V) (R : nat -> list (nat * V)).
Notation n := (rows M).
Notation ev := (@event loc (tcell V)).
Notation mem := (gmap loc (tcell V)).
Hypothesis HM : wf M.
Hypothesis HR : forall i, i < n -> nhRow zero mul add A Bc M i = Ok (R i).
Hypothesis HL : forall i, i < n -> length (R i) <= length (row_entries M i).
Hypothesis Hnt : 1 <= nt.
Hypothesis HW : n + nt <= W.
Let mp := pre (row_entries M).
Let cut := nhCut n nt.

Lemma mp_at i : i <= n -> rowptr M !! i = Some (mp i).
Proof. intros Hi. apply wf_pre; assumption. Qed.
Lemma preR_mp a b : a <= b -> b <= n -> pre R b + mp a <= mp b + pre R a.
Proof.
  induction 1 as [|b Hab IH]; intros Hb; [lia|]. unfold mp in *. rewrite !pre_S. specialize (HL b ltac:(lia)). specialize (IH ltac:(lia)). lia.
Qed.

Fixpoint evRows (base : nat) (its : list nat) (cnt : nat) : list ev :=
  match its with
  | [] => []
  | i :: its' => evS (base + cnt) (R i) ++ EWr (tNz, i) (TN (length (R i))) :: evRows base its' (cnt + length (R i))
  end.
Lemma evRows_in base its : forall cnt e, e ∈ evRows base its cnt <->
  (exists k x, mjoin (R <$> its) !! k = Some x /\ (e = EWr (tIds, base + cnt + k) (TN (fst x)) \/ e = EWr (tVals, base + cnt + k) (TV (snd x)))) \/
  (exists i, i ∈ its /\ e = EWr (tNz, i) (TN (length (R i)))).
Proof.
  induction its as [|i its IH]; intros cnt e; cbn [evRows].
  - rewrite elem_of_nil. split; [tauto|]. intros [(k & x & E & _)|(i & Hi & _)]; [discriminate|]. inversion Hi.
  - rewrite elem_of_app, elem_of_cons, evS_in, IH, fmap_cons, mjoin_cons. split.
    + intros [(k & x & E & H)|[->|[(k & x & E & H)|(j & Hj & ->)]]].
      * left. exists k, x. split; [apply lookup_app_l_Some, E|exact H].
      * right. exists i. split; [left|reflexivity].
      * left. exists (length (R i) + k), x. split; [rewrite lookup_app_r by lia; replace (length (R i) + k - length (R i)) with k by lia; exact E|].
        replace (base + cnt + (length (R i) + k)) with (base + (cnt + length (R i)) + k) by lia. exact H.
      * right. exists j. split; [right; exact Hj|reflexivity].
    + intros [(k & x & E & H)|(j & Hj & ->)].
      * apply lookup_app_Some in E as [E|[Hk E]]; [left; eauto|].
        right. right. left. exists (k - length (R i)), x. split; [exact E|].
        replace (base + (cnt + length (R i)) + (k - length (R i))) with (base + cnt + k) by lia. exact H.
      * apply elem_of_cons in Hj as [->|Hj]; [auto|]. right. right. right. eauto.
Qed.

Lemma nhRows_runs start base its : (its <> [] -> rowptr M !! start = Some base) -> (forall i, i ∈ its -> i < n) ->
  forall cnt (m : mem),
  (forall k, k < length (mjoin (R <$> its)) -> is_Some (m !! (tIds, base + cnt + k)) /\ is_Some (m !! (tVals, base + cnt + k))) ->
  (forall i, i ∈ its -> is_Some (m !! (tNz, i))) ->
  exists mf, solo m (nhRows zero mul add A Bc M start its cnt) (evRows base its cnt) (cnt + length (mjoin (R <$> its))) mf.
Proof.
  induction its as [|i its IH]; intros Hb Hi cnt m Hm Hz.
  { exists m. simpl. rewrite Nat.add_0_r. constructor. }
  rewrite fmap_cons, mjoin_cons, app_length in Hm |- *.
  destruct (storeRow_runs (R i) (base + cnt) m) as [m1 H1]; [intros k Hk; apply Hm; lia|].
  destruct (IH ltac:(intros _; apply Hb; discriminate) ltac:(intros j Hj; apply Hi; right; exact Hj) (cnt + length (R i)) (<[(tNz, i) := TN (length (R i))]> m1)) as [mf H2].
  { intros k Hk. destruct (Hm (length (R i) + k) ltac:(lia)) as [Ha Hb']. rewrite !lookup_insert_ne by (intros [=]).
    replace (base + (cnt + length (R i)) + k) with (base + cnt + (length (R i) + k)) by lia.
    split; [apply (solo_dom _ _ _ _ _ _ H1), Ha|apply (solo_dom _ _ _ _ _ _ H1), Hb']. }
  { intros j Hj. destruct (decide (i = j)) as [->|Hne]; [rewrite lookup_insert; eauto|]. rewrite lookup_insert_ne by congruence.
    apply (solo_dom _ _ _ _ _ _ H1), Hz. right. exact Hj. }
  exists mf. cbn [nhRows evRows]. eapply solo_lift; [apply HR, Hi; left|]. eapply solo_lift; [apply get_Some, Hb; discriminate|].
  eapply solo_bind; [exact H1|]. apply solo_wr; [apply (solo_dom _ _ _ _ _ _ H1), Hz; left|].
  replace (cnt + (length (R i) + length (mjoin (R <$> its)))) with (cnt + length (R i) + length (mjoin (R <$> its))) by lia. exact H2.
Qed.

Let part t := rowsOf R (cut t) (cut (t + 1)).
Let evT t : list ev := evRows (mp (cut t)) (seq (cut t) (cut (t + 1) - cut t)) 0 ++ [EWr (tTh, t) (TN (length (part t)))].
Let m0 : mem := nhMem (colids M) (replicate (nnz M) zero) (replicate n 0) (replicate nt 0).

Lemma nhMem_lookup ids (vals : list V) nz th a p : nhMem ids vals nz th !! (a, p) =
  if decide (a = tIds) then TN <$> ids !! p else if decide (a = tVals) then TV <$> vals !! p
  else if decide (a = tNz) then TN <$> nz !! p else if decide (a = tTh) then TN <$> th !! p else None.
Proof.
  unfold nhMem. rewrite !lookup_union, !cells_lookup, !list_lookup_fmap.
  destruct (decide (a = tIds)) as [->|]; [simpl; destruct (ids !! p); reflexivity|].
  destruct (decide (a = tVals)) as [->|]; [simpl; destruct (vals !! p); reflexivity|].
  destruct (decide (a = tNz)) as [->|]; [simpl; destruct (nz !! p); reflexivity|].
  destruct (decide (a = tTh)) as [->|]; [simpl; destruct (th !! p); reflexivity|]. reflexivity.
Qed.
Lemma nhMem_inj i1 i2 (v1 v2 : list V) z1 z2 h1 h2 : nhMem i1 v1 z1 h1 = nhMem i2 v2 z2 h2 -> i1 = i2 /\ v1 = v2 /\ z1 = z2 /\ h1 = h2.
Proof.
  intros H. assert (HH : forall a p, nhMem i1 v1 z1 h1 !! (a, p) = nhMem i2 v2 z2 h2 !! (a, p)) by (intros; rewrite H; reflexivity).
  setoid_rewrite nhMem_lookup in HH. repeat split; apply list_eq; intros p.
  - specialize (HH tIds p). simpl in HH. destruct (i1 !! p), (i2 !! p); simpl in HH; congruence.
  - specialize (HH tVals p). simpl in HH. destruct (v1 !! p), (v2 !! p); simpl in HH; congruence.
  - specialize (HH tNz p). simpl in HH. destruct (z1 !! p), (z2 !! p); simpl in HH; congruence.
  - specialize (HH tTh p). simpl in HH. destruct (h1 !! p), (h2 !! p); simpl in HH; congruence.
Qed.

Lemma part_len t : length (part t) = pre R (cut (t + 1)) - pre R (cut t).
Proof. apply rowsOf_length, nhCut_le. lia. Qed.
Lemma part_room t : mp (cut t) + length (part t) <= mp (cut (t + 1)).
Proof.
  rewrite part_len. pose proof (preR_mp (cut t) (cut (t + 1)) (nhCut_le _ _ t (t + 1) ltac:(lia)) (nhCut_n _ _ _)).
  pose proof (pre_le R (cut t) (cut (t + 1)) (nhCut_le _ _ t (t + 1) ltac:(lia))). 
  pose proof (pre_le (row_entries M) (cut t) (cut (t + 1)) (nhCut_le _ _ t (t + 1) ltac:(lia))). unfold mp in *. lia.
Qed.
Lemma mp_nnz i : i <= n -> mp i <= nnz M.
Proof. intros Hi. eapply wf_le_nnz; [exact HM|apply mp_at, Hi|exact Hi]. Qed.

(** The writes of a thread. *)
Lemma evT_in t e : e ∈ evT t <->
  (exists k x, part t !! k = Some x /\ (e = EWr (tIds, mp (cut t) + k) (TN (fst x)) \/ e = EWr (tVals, mp (cut t) + k) (TV (snd x)))) \/
  (exists i, cut t <= i < cut (t + 1) /\ e = EWr (tNz, i) (TN (length (R i)))) \/ e = EWr (tTh, t) (TN (length (part t))).
Proof.
  unfold evT. rewrite elem_of_app, evRows_in, elem_of_list_singleton, Nat.add_0_r. fold (rowsOf R (cut t) (cut (t + 1))). fold (part t).
  split.
  - intros [[H|(i & Hi & ->)]|H]; [auto| |auto]. right. left. exists i. split; [apply elem_of_seq in Hi; lia|reflexivity].
  - intros [H|[(i & Hi & ->)|H]]; [auto| |auto]. left. right. exists i. split; [apply elem_of_seq; lia|reflexivity].
Qed.

Lemma nhThread_runs t : t < nt -> exists mf, solo m0 (nhThread zero mul add W A Bc M nt t) (evT t) tt mf.
Proof.
  intros Ht. unfold nhThread. destruct (nhRange n nt W Hnt HW t Ht) as [E Hst]. cbv zeta in *.
  rewrite E in Hst |- *. set (start := (nhPer W n nt * t) mod W) in *. fold cut in Hst |- *.
  destruct (nhRows_runs start (mp (cut t)) (seq (cut t) (cut (t + 1) - cut t))) with (cnt := 0) (m := m0) as [m1 H1].
  - intros Hne. rewrite (Hst Hne). apply mp_at, nhCut_n.
  - intros i Hi. apply elem_of_seq in Hi. pose proof (nhCut_n n nt (t + 1)). fold cut in H. lia.
  - intros k Hk. fold (rowsOf R (cut t) (cut (t + 1))) in Hk. fold (part t) in Hk. rewrite Nat.add_0_r.
    pose proof (part_room t). pose proof (mp_nnz (cut (t + 1)) (nhCut_n _ _ _)). unfold m0. rewrite !nhMem_lookup. simpl.
    rewrite lookup_replicate_2 by lia. destruct (lookup_lt_is_Some_2 (colids M) (mp (cut t) + k)) as [c ->]; [rewrite (wf_colids M HM); lia|]. simpl. eauto.
  - intros i Hi. apply elem_of_seq in Hi. pose proof (nhCut_n n nt (t + 1)). fold cut in H. unfold m0. rewrite nhMem_lookup. simpl.
    rewrite lookup_replicate_2 by lia. simpl. eauto.
  - eexists. unfold evT. eapply solo_bind; [exact H1|]. apply solo_wr; [|constructor].
    apply (solo_dom _ _ _ _ _ _ H1). unfold m0. rewrite nhMem_lookup. simpl. rewrite lookup_replicate_2 by lia. simpl. eauto.
Qed.

Lemma written_dec (L : list ev) l : (exists v, EWr l v ∈ L) \/ (forall v, EWr l v ∉ L).
Proof.
  induction L as [|e L [(v & H)|H]].
  - right. intros v Hv. inversion Hv.
  - left. exists v. right. exact H.
  - assert (Hr : forall e', (forall v, e <> EWr l v) -> e' = e -> (exists v, EWr l v ∈ e' :: L) \/ (forall v, EWr l v ∉ e' :: L)).
    { intros e' Hne ->. right. intros v Hv. apply elem_of_cons in Hv as [Hv|Hv]; [exact (Hne v (eq_sym Hv))|exact (H v Hv)]. }
    destruct e as [l'|l'|l' v']; [apply Hr; [discriminate|reflexivity]|apply Hr; [discriminate|reflexivity]|].
    destruct (decide (l = l')) as [->|Hne]; [left; exists v'; left|]. apply Hr; [|reflexivity]. intros v [= E _]. apply Hne. symmetry. exact E.
Qed.

Lemma nhThreads_imap : nhThreads zero mul add W A Bc M nt = imap (fun t (_ : unit) => nhThread zero mul add W A Bc M nt t) (replicate nt tt).
Proof.
  apply list_eq. intros t. unfold nhThreads. rewrite list_lookup_fmap, list_lookup_imap. destruct (Nat.lt_ge_cases t nt) as [Ht|Ht].
  - rewrite lookup_seq_lt, lookup_replicate_2 by exact Ht. reflexivity.
  - rewrite lookup_seq_ge by exact Ht. rewrite lookup_ge_None_2 by (rewrite replicate_length; exact Ht). reflexivity.
Qed.

(** Who writes what. *)
Let own (t : nat) (l : loc) : Prop :=
  ((fst l = tIds \/ fst l = tVals) /\ mp (cut t) <= snd l < mp (cut (t + 1))) \/ (fst l = tNz /\ cut t <= snd l < cut (t + 1)) \/ l = (tTh, t).
Let wv (t : nat) (l : loc) : option (tcell V) :=
  if decide (fst l = tIds) then (fun x => TN (fst x)) <$> part t !! (snd l - mp (cut t))
  else if decide (fst l = tVals) then (fun x => TV (snd x)) <$> part t !! (snd l - mp (cut t))
  else if decide (fst l = tNz) then Some (TN (length (R (snd l)))) else Some (TN (length (part t))).

Lemma evT_own t l v : EWr l v ∈ evT t -> own t l /\ wv t l = Some v.
Proof.
  intros H. apply evT_in in H as [(k & x & E & H)|[(i & Hi & [= -> ->])|[= -> ->]]].
  - pose proof (lookup_lt_Some _ _ _ E) as Hk. pose proof (part_room t).
    destruct H as [[= -> ->]|[= -> ->]]; unfold own, wv; simpl; replace (mp (cut t) + k - mp (cut t)) with k by lia; rewrite E; (split; [left; split; [auto|lia]|reflexivity]).
  - unfold own, wv. simpl. auto.
  - unfold own, wv. simpl. auto.
Qed.
Lemma mp_le i j : i <= j -> mp i <= mp j.
Proof. apply pre_le. Qed.
Lemma own_uniq t u l : own t l -> own u l -> t = u.
Proof.
  intros [[Ha H1]|[[Ha H1]|E]] [[Hb H2]|[[Hb H2]|E']]; try (exfalso; subst; simpl in *; unfold tIds, tVals, tNz, tTh in *; intuition lia).
  - destruct (Nat.lt_trichotomy t u) as [H|[H|H]]; [|exact H|].
    + pose proof (mp_le (cut (t + 1)) (cut u) (nhCut_le _ _ (t + 1) u ltac:(lia))). lia.
    + pose proof (mp_le (cut (u + 1)) (cut t) (nhCut_le _ _ (u + 1) t ltac:(lia))). lia.
  - eapply nhCut_uniq; eassumption.
  - congruence.
Qed.

Lemma nhRegion : exists ids vals nz th,
  always (m0, nhThreads zero mul add W A Bc M nt) (nhMem ids vals nz th) (replicate nt tt) /\
  race_free (m0, nhThreads zero mul add W A Bc M nt) /\
  length ids = nnz M /\ length vals = nnz M /\
  (forall t k x, t < nt -> rowsOf R (cut t) (cut (t + 1)) !! k = Some x -> ids !! (mp (cut t) + k) = Some (fst x) /\ vals !! (mp (cut t) + k) = Some (snd x)) /\
  nz = (fun i => length (R i)) <$> seq 0 n /\ th = (fun t => pre R (cut (t + 1)) - pre R (cut t)) <$> seq 0 nt.
Proof.
  destruct (owned_phase_t (E := unit) nt (replicate nt tt) (fun _ t _ => nhThread zero mul add W A Bc M nt t) tt m0 evT (fun _ => tt) own wv) as (m' & Hal & Hwr & Hkp).
  { apply replicate_length. } { intros t s Ht _. apply nhThread_runs, Ht. } { intros t l v _. apply evT_own. }
  { intros t u l _ _ H. apply evT_in in H as [(k & x & _ & [H|H])|[(i & _ & H)|H]]; discriminate. }
  { intros t u l _ _. apply own_uniq. }
  assert (Hw : forall l, (exists t v, t < nt /\ EWr l v ∈ evT t /\ m' !! l = Some v) \/ m' !! l = m0 !! l).
  { intros l. destruct (written_dec (mjoin (evT <$> seq 0 nt)) l) as [(v & H)|H].
    - left. apply elem_of_list_join in H as (L & HL1 & HL2). apply elem_of_list_fmap in HL2 as (t & -> & Ht). apply elem_of_seq in Ht.
      exists t, v. split; [lia|]. split; [exact HL1|]. apply (Hwr t); [lia|exact HL1].
    - right. apply Hkp. intros t v Ht Hin. apply (H v). apply elem_of_list_join. exists (evT t). split; [exact Hin|].
      apply elem_of_list_fmap. exists t. split; [reflexivity|]. apply elem_of_seq. lia. }
  set (rdN := fun a k => (fun p => match m' !! (a, p) with Some (TN x) => x | _ => 0 end) <$> seq 0 k).
  set (rdV := fun a k => (fun p => match m' !! (a, p) with Some (TV x) => x | _ => zero end) <$> seq 0 k).
  assert (Ht1 : forall p, p < nnz M -> exists x, m' !! (tIds, p) = Some (TN x)).
  { intros p Hp. destruct (Hw (tIds, p)) as [(t & v & Ht & Hin & ->)| ->].
    - apply evT_in in Hin as [(k & x & _ & [H|H])|[(i & _ & H)|H]]; try discriminate. injection H as _ ->. eauto.
    - unfold m0. rewrite nhMem_lookup. simpl. destruct (lookup_lt_is_Some_2 (colids M) p) as [c ->]; [rewrite (wf_colids M HM); exact Hp|]. simpl. eauto. }
  assert (Ht2 : forall p, p < nnz M -> exists x, m' !! (tVals, p) = Some (TV x)).
  { intros p Hp. destruct (Hw (tVals, p)) as [(t & v & Ht & Hin & ->)| ->].
    - apply evT_in in Hin as [(k & x & _ & [H|H])|[(i & _ & H)|H]]; try discriminate. injection H as _ ->. eauto.
    - unfold m0. rewrite nhMem_lookup. simpl. rewrite lookup_replicate_2 by exact Hp. simpl. eauto. }
  assert (Ht3 : forall i, i < n -> m' !! (tNz, i) = Some (TN (length (R i)))).
  { intros i Hi. destruct (nhCut_of n nt i Hnt Hi) as (t & Ht & Hc). apply (Hwr t); [exact Ht|]. apply evT_in. right. left. eauto. }
  assert (Ht4 : forall t, t < nt -> m' !! (tTh, t) = Some (TN (length (part t)))).
  { intros t Ht. apply (Hwr t); [exact Ht|]. apply evT_in. right. right. reflexivity. }
  assert (Hout : forall l v, m' !! l = Some v -> is_Some (m0 !! l)).
  { intros l v Hv. destruct (Hw l) as [(t & v' & Ht & Hin & _)|E]; [|rewrite <- E, Hv; eauto].
    destruct (nhThread_runs t Ht) as [mf Hs]. destruct (m0 !! l) eqn:Em; [eauto|].
    exfalso. destruct (evT_own t l v' Hin) as [Ho _]. unfold own in Ho. destruct l as [a p]. simpl in Ho. unfold m0 in Em. rewrite nhMem_lookup in Em.
    assert (Hnn : mp (cut (t + 1)) <= nnz M) by (apply mp_nnz, nhCut_n). assert (Hcn : cut (t + 1) <= n) by apply nhCut_n.
    destruct Ho as [[[-> | ->] Hp]|[[-> Hp]|[= -> ->]]]; simpl in Em.
    - destruct (lookup_lt_is_Some_2 (colids M) p) as [c E]; [rewrite (wf_colids M HM); lia|]. rewrite E in Em. discriminate.
    - rewrite lookup_replicate_2 in Em by lia. discriminate.
    - rewrite lookup_replicate_2 in Em by lia. discriminate.
    - rewrite lookup_replicate_2 in Em by lia. discriminate. }
  exists (rdN tIds (nnz M)), (rdV tVals (nnz M)), (rdN tNz n), (rdN tTh nt).
  rewrite nhThreads_imap. split; [|split; [|split; [|split; [|split; [|split]]]]].
  - replace (nhMem (rdN tIds (nnz M)) (rdV tVals (nnz M)) (rdN tNz n) (rdN tTh nt)) with m'.
    + replace (replicate nt tt) with ((fun _ : nat => tt) <$> seq 0 nt) at 2; [exact Hal|].
      apply list_eq. intros t. rewrite list_lookup_fmap. destruct (Nat.lt_ge_cases t nt) as [Ht|Ht]; [rewrite lookup_seq_lt, lookup_replicate_2 by exact Ht; reflexivity|].
      rewrite lookup_seq_ge by exact Ht. rewrite lookup_ge_None_2 by (rewrite replicate_length; exact Ht). reflexivity.
    + apply map_eq. intros [a p]. rewrite nhMem_lookup. unfold rdN, rdV. rewrite !seq_at.
      assert (Hnone : m0 !! (a, p) = None -> m' !! (a, p) = None).
      { intros H. destruct (m' !! (a, p)) as [v|] eqn:E; [|reflexivity]. apply Hout in E. rewrite H in E. destruct E. discriminate. }
      unfold m0 in Hnone. rewrite nhMem_lookup in Hnone.
      destruct (decide (a = tIds)) as [->|N1]; [|destruct (decide (a = tVals)) as [->|N2]; [|destruct (decide (a = tNz)) as [->|N3]; [|destruct (decide (a = tTh)) as [->|N4]]]].
      * destruct (decide (p < nnz M)) as [Hp|Hp]; [destruct (Ht1 p Hp) as [x ->]; reflexivity|]. apply Hnone. rewrite lookup_ge_None_2 by (rewrite (wf_colids M HM); lia). reflexivity.
      * destruct (decide (p < nnz M)) as [Hp|Hp]; [destruct (Ht2 p Hp) as [x ->]; reflexivity|]. apply Hnone. rewrite lookup_ge_None_2 by (rewrite replicate_length; lia). reflexivity.
      * destruct (decide (p < n)) as [Hp|Hp]; [rewrite (Ht3 p Hp); reflexivity|]. apply Hnone. rewrite lookup_ge_None_2 by (rewrite replicate_length; lia). reflexivity.
      * destruct (decide (p < nt)) as [Hp|Hp]; [rewrite (Ht4 p Hp); reflexivity|]. apply Hnone. rewrite lookup_ge_None_2 by (rewrite replicate_length; lia). reflexivity.
      * apply Hnone. reflexivity.
  - apply (owned_race_free (E := unit) nt (replicate nt tt) (fun _ t _ => nhThread zero mul add W A Bc M nt t) tt m0 evT (fun _ => tt) own).
    + apply replicate_length.
    + intros t s Ht _. apply nhThread_runs, Ht.
    + intros t l v _ H. apply (evT_own t l v H).
    + intros t u l _ _ H. apply evT_in in H as [(k & x & _ & [H|H])|[(i & _ & H)|H]]; discriminate.
    + intros t u l _ _ H. apply evT_in in H as [(k & x & _ & [H|H])|[(i & _ & H)|H]]; discriminate.
    + intros t u l _ _. apply own_uniq.
  - unfold rdN. rewrite fmap_length. apply seq_length.
  - unfold rdV. rewrite fmap_length. apply seq_length.
  - intros t k x Ht E. pose proof (lookup_lt_Some _ _ _ E) as Hk. fold (part t) in E, Hk. pose proof (part_room t). pose proof (mp_nnz (cut (t + 1)) (nhCut_n _ _ _)).
    unfold rdN, rdV. rewrite !seq_at, !decide_True by lia.
    rewrite (Hwr t (tIds, mp (cut t) + k) (TN (fst x)) Ht) by (apply evT_in; left; eauto).
    rewrite (Hwr t (tVals, mp (cut t) + k) (TV (snd x)) Ht) by (apply evT_in; left; eauto). auto.
  - unfold rdN. apply list_fmap_ext. intros i j Hj. apply lookup_seq in Hj as [-> Hj]. simpl. rewrite (Ht3 i Hj). reflexivity.
  - unfold rdN. apply list_fmap_ext. intros t j Hj. apply lookup_seq in Hj as [-> Hj]. simpl. rewrite (Ht4 t Hj), part_len. reflexivity.
Qed.
End Region.

(** ** The sequential end *)
Lemma copyR_ok {X} (a b c src : list X) s : (forall k x, b !! k = Some x -> src !! (s + k) = Some x) -> length b <= length c ->
  copyR (a ++ c) (length a) src s (length b) = Ok (a ++ b ++ drop (length b) c).
Proof.
  intros Hs Hc. unfold copyR.
  destruct (for_inv (fun k l => l = a ++ take k b ++ drop k c) (fun k dst => x <- get src (s + k) ;; set_ dst (length a + k) x) 0 (length b) (a ++ c)) as (l & E & ->).
  - lia.
  - rewrite take_0, drop_0. reflexivity.
  - intros k l Hk ->. destruct (lookup_lt_is_Some_2 b k) as [x Hx]; [lia|]. rewrite (get_Some _ _ _ (Hs k x Hx)), bind_Ok.
    assert (Htk : length (take k b) = k) by (rewrite take_length; lia).
    destruct (lookup_lt_is_Some_2 c k) as [y Hy]; [lia|].
    rewrite set_Ok by (rewrite !app_length, drop_length; lia). eexists. split; [reflexivity|].
    rewrite insert_app_r, insert_app_r_alt, Htk, Nat.sub_diag by lia. rewrite (drop_S c _ _ Hy). replace (k + 1) with (S k) by lia.
    rewrite (take_S_r b k x Hx), <- app_assoc. reflexivity.
  - rewrite E, (take_ge b) by lia. reflexivity.
Qed.

Section Finish.
Context {V : Type} (dflt : V) (W nt : nat) (A M : csr V) (R : nat -> list (nat * V)).
Notation n := (rows M).
Hypothesis HM : wf M.
Hypothesis HAM : rows M = rows A.
Hypothesis Hnt : 1 <= nt.
Hypothesis HW : n + nt <= W.
Let mp := pre (row_entries M).
Let cut := nhCut n nt.

Lemma nhFinish_ok nnz0 ids vals :
  (forall t k x, t < nt -> rowsOf R (cut t) (cut (t + 1)) !! k = Some x -> ids !! (mp (cut t) + k) = Some (fst x) /\ vals !! (mp (cut t) + k) = Some (snd x)) ->
  nhFinish dflt W A M nt nnz0 ids vals ((fun i => length (R i)) <$> seq 0 n) ((fun t => pre R (cut (t + 1)) - pre R (cut t)) <$> seq 0 nt) =
    Ok (mkCsr n (cols M) (nnz0 + pre R n) (pre R <$> seq 0 (n + 1)) ((fst <$> rowsOf R 0 n) ++ replicate nnz0 0) ((snd <$> rowsOf R 0 n) ++ replicate nnz0 dflt)).
Proof.
  intros Hp. unfold nhFinish. set (nz := (fun i => length (R i)) <$> seq 0 n). set (th := (fun t => pre R (cut (t + 1)) - pre R (cut t)) <$> seq 0 nt).
  assert (Hnz : forall i, i < n -> get nz i = Ok (length (R i))) by (intros i Hi; apply get_Some; unfold nz; rewrite seq_at, decide_True by exact Hi; reflexivity).
  assert (Hth : forall t, t < nt -> get th t = Ok (length (rowsOf R (cut t) (cut (t + 1))))).
  { intros t Ht. apply get_Some. unfold th. rewrite seq_at, decide_True by exact Ht. rewrite rowsOf_length by (apply nhCut_le; lia). reflexivity. }
  destruct (for_inv (fun i s => s = nnz0 + pre R i) (fun i s => x <- get nz i ;; Ok (s + x)) 0 n nnz0) as (tot & -> & ->).
  { lia. } { rewrite pre_0. lia. }
  { intros i s Hi ->. rewrite Hnz, bind_Ok by lia. eexists. split; [reflexivity|]. replace (i + 1) with (S i) by lia. rewrite pre_S. lia. }
  rewrite bind_Ok, Hth, bind_Ok by lia.
  assert (Hpre : forall t, t <= nt -> rowsOf R 0 (cut (t + 1)) = rowsOf R 0 (cut t) ++ rowsOf R (cut t) (cut (t + 1))).
  { intros t Ht. pose proof (nhCut_le n nt t (t + 1) ltac:(lia)) as Hc. rewrite (rowsOf_split R (cut t) (cut (t + 1)) (cut (t + 1))) by (unfold cut; lia).
    rewrite (rowsOf_nil R (cut (t + 1))) by lia. rewrite app_nil_r. reflexivity. }
  assert (Hln : forall i, length (rowsOf R 0 i) = pre R i) by (intros i; rewrite rowsOf_length, pre_0 by lia; lia).
  assert (Hle : forall t, pre R (cut t) <= pre R n) by (intros t; apply pre_le, nhCut_n).
  (* one copy *)
  assert (Hcopy : forall X (d : X) (f : nat * V -> X) src t, t < nt ->
    (forall k x, rowsOf R (cut t) (cut (t + 1)) !! k = Some x -> src !! (mp (cut t) + k) = Some (f x)) ->
    copyR ((f <$> rowsOf R 0 (cut t)) ++ replicate (nnz0 + pre R n - pre R (cut t)) d) (pre R (cut t)) src (mp (cut t)) (length (rowsOf R (cut t) (cut (t + 1)))) =
      Ok ((f <$> rowsOf R 0 (cut (t + 1))) ++ replicate (nnz0 + pre R n - pre R (cut (t + 1))) d)).
  { intros X d f src t Ht Hs. pose proof (nhCut_le n nt t (t + 1) ltac:(lia)) as Hc. fold cut in Hc. pose proof (pre_le R _ _ Hc).
    pose proof (copyR_ok (f <$> rowsOf R 0 (cut t)) (f <$> rowsOf R (cut t) (cut (t + 1))) (replicate (nnz0 + pre R n - pre R (cut t)) d) src (mp (cut t))) as E.
    rewrite !fmap_length, Hln in E. rewrite E.
    - rewrite (Hpre t ltac:(lia)), fmap_app, <- app_assoc. f_equal. f_equal. f_equal. rewrite drop_replicate, rowsOf_length by exact Hc. f_equal. pose proof (Hle (t + 1)). lia.
    - intros k x Hx. apply list_lookup_fmap_inv in Hx as (y & -> & Hy). apply Hs, Hy.
    - rewrite replicate_length, rowsOf_length by exact Hc. pose proof (Hle (t + 1)). lia. }
  assert (Hc0 : forall X (d : X) (f : nat * V -> X), replicate (nnz0 + pre R n) d = (f <$> rowsOf R 0 (cut 0)) ++ replicate (nnz0 + pre R n - pre R (cut 0)) d).
  { intros X d f. unfold cut. rewrite nhCut_0, rowsOf_nil, pre_0, Nat.sub_0_r by lia. reflexivity. }
  assert (Hz : mp (cut 0) = 0 /\ pre R (cut 0) = 0) by (unfold cut, mp; rewrite nhCut_0, !pre_0; auto). destruct Hz as [Hz1 Hz2].
  pose proof (Hcopy _ 0 fst ids 0 ltac:(lia) ltac:(intros k x Hx; apply (Hp 0 k x ltac:(lia) Hx))) as C1.
  pose proof (Hcopy _ dflt snd vals 0 ltac:(lia) ltac:(intros k x Hx; apply (Hp 0 k x ltac:(lia) Hx))) as C2.
  rewrite <- Hc0, Hz1, Hz2 in C1. rewrite <- Hc0, Hz1, Hz2 in C2. change (0 + 1) with 1 in *. rewrite C1, bind_Ok, C2, bind_Ok. clear C1 C2.
  set (body := fun i '(dest, fi, fv) => _).
  destruct (for_inv (fun i (s : nat * list nat * list V) => s = (pre R (cut (i - 1)), (fst <$> rowsOf R 0 (cut i)) ++ replicate (nnz0 + pre R n - pre R (cut i)) 0, (snd <$> rowsOf R 0 (cut i)) ++ replicate (nnz0 + pre R n - pre R (cut i)) dflt)) body 1 nt
    (0, (fst <$> rowsOf R 0 (cut 1)) ++ replicate (nnz0 + pre R n - pre R (cut 1)) 0, (snd <$> rowsOf R 0 (cut 1)) ++ replicate (nnz0 + pre R n - pre R (cut 1)) dflt)) as (s & E & ->).
  { lia. } { change (1 - 1) with 0. rewrite Hz2. reflexivity. }
  { intros i s Hi ->. unfold body. rewrite Hth, bind_Ok by lia. replace (i - 1 + 1) with i by lia.
    rewrite (Nat.mul_comm i), nhPer_mul, <- HAM by lia. fold (nhCut n nt i). fold cut.
    rewrite (get_Some (rowptr M) (cut i) (mp (cut i))) by (apply wf_pre; [exact HM|apply nhCut_n]). rewrite bind_Ok, Hth, bind_Ok by lia.
    assert (Ed : pre R (cut (i - 1)) + length (rowsOf R (cut (i - 1)) (cut i)) = pre R (cut i)).
    { pose proof (nhCut_le n nt (i - 1) i ltac:(lia)) as Hc. fold cut in Hc. rewrite rowsOf_length by exact Hc. pose proof (pre_le R _ _ Hc). lia. }
    rewrite Ed.
    rewrite (Hcopy _ 0 fst ids i ltac:(lia) ltac:(intros k x Hx; apply (Hp i k x ltac:(lia) Hx))), bind_Ok.
    rewrite (Hcopy _ dflt snd vals i ltac:(lia) ltac:(intros k x Hx; apply (Hp i k x ltac:(lia) Hx))), bind_Ok.
    eexists. split; [reflexivity|]. replace (i + 1 - 1) with i by lia. reflexivity. }
  rewrite E, bind_Ok. clear E body.
  destruct (for_inv (fun i l => l = (pre R <$> seq 0 i) ++ replicate (n + 1 - i) 0) (fun i rp => x <- get rp (i - 1) ;; y <- get nz (i - 1) ;; set_ rp i (x + y)) 1 (n + 1) (replicate (n + 1) 0)) as (rp & -> & ->).
  { lia. } { replace (n + 1) with (1 + n) at 1 by lia. replace (n + 1 - 1) with n by lia. reflexivity. }
  { intros i l Hi ->. assert (Hl : length (pre R <$> seq 0 i) = i) by (rewrite fmap_length; apply seq_length).
    rewrite (get_Some _ (i - 1) (pre R (i - 1))), bind_Ok, Hnz, bind_Ok by (try lia; rewrite lookup_app_l, seq_at, decide_True by lia; reflexivity).
    rewrite set_Ok by (rewrite app_length, replicate_length; lia). eexists. split; [reflexivity|].
    rewrite insert_app_r_alt by lia. rewrite Hl, Nat.sub_diag. replace (n + 1 - i) with (S (n + 1 - (i + 1))) by lia. simpl.
    rewrite seq_app, fmap_app, <- app_assoc. simpl. do 2 f_equal. rewrite <- pre_S. f_equal. lia. }
  rewrite bind_Ok. unfold cut. rewrite nhCut_nt by exact Hnt. replace (nnz0 + pre R n - pre R n) with nnz0 by lia. replace (n + 1 - (n + 1)) with 0 by lia. rewrite app_nil_r. reflexivity.
Qed.
End Finish.

(** ** BIN.h on A and the column pointers of B *)
Section Bins.
Context {V : Type} (W top nts nt min : nat) (A : csr V) (Bc : csc V).
Hypothesis HA : wf A.
Hypothesis HB : wf_csc Bc.
Hypothesis Hin : forall p c, colids A !! p = Some c -> c < c_cols Bc.

(** What BIN.h takes to be the two matrices. *)
Let A' : csr V := mkCsr (rows A) (c_cols Bc) (nnz A) (rowptr A) (colids A) (values A).
Let B' : csr V := mkCsr (c_cols Bc) (c_cols Bc) (c_nnz Bc) (colptr Bc) (replicate (c_nnz Bc) 0) (c_values Bc).
Definition colWork (i : nat) : nat := sum_list ((fun k => length (col_entries Bc k)) <$> row_cols A i).

Lemma A'_wf : wf A'.
Proof. destruct HA. constructor; cbn; auto. Qed.
Lemma B'_wf : wf B'.
Proof.
  pose proof HB as [H1 H2 H3 H4 H5 H6 H7]. cbn [csc_tr rows cols nnz rowptr colids values] in *. constructor; cbn [B' rows cols nnz rowptr colids values]; auto.
  - apply replicate_length.
  - intros p c Hp. apply lookup_replicate in Hp as [-> Hp]. destruct (Nat.eq_dec (c_cols Bc) 0) as [E|E]; [|lia].
    rewrite E in H4. rewrite H2 in H4. injection H4 as H4. lia.
Qed.
Lemma colWork_eq i : nprods A' B' i = colWork i.
Proof.
  unfold nprods, colWork, row_cols. change (row_entries A' i) with (row_entries A i). rewrite <- list_fmap_compose. f_equal. apply list_fmap_ext.
  intros _ [k a] _. cbn [compose fst].
  pose proof B'_wf as W1. pose proof HB as W2. unfold wf_csc in W2.
  destruct (Nat.lt_ge_cases k (c_cols Bc)) as [Hk|Hk].
  - destruct (row_bounds_wf B' k W1 Hk) as (b & e & Hb & He & _ & _ & _).
    rewrite (row_entries_length B' k b e W1 Hk Hb He). symmetry. apply (row_entries_length (csc_tr Bc) k b e W2 Hk Hb He).
  - assert (E1 : row_entries B' k = []).
    { unfold row_entries. replace (rowptr B' !! (k + 1)) with (@None nat); [destruct (rowptr B' !! k); reflexivity|]. symmetry. apply lookup_ge_None_2. rewrite (wf_len B' W1). cbn [B' rows]. lia. }
    assert (E2 : col_entries Bc k = []).
    { unfold col_entries, row_entries. replace (rowptr (csc_tr Bc) !! (k + 1)) with (@None nat); [destruct (rowptr (csc_tr Bc) !! k); reflexivity|]. symmetry. apply lookup_ge_None_2. rewrite (wf_len _ W2). cbn [csc_tr rows]. lia. }
    rewrite E1, E2. reflexivity.
Qed.

Lemma nh_bin_ok : rows A <> 0 -> 1 <= nt -> (N.of_nat (rows A + 1) < 2 ^ 17)%N -> sum_list (colWork <$> seq 0 (rows A)) + nt <= W ->
  1 <= min -> min < W -> (forall i, i < rows A -> 2 * Nat.min (colWork i) (c_cols Bc) <= W) ->
  exists b, set_max_bin_ends W top nts nt min (rowptr A) (colids A) (colptr Bc) (rows A) (c_cols Bc) b.
Proof.
  intros H0 Hnt HN HW Hm HmW Hf. exists (binFor W A' B' nt min).
  apply (set_max_bin_ok W top A' B' nts nt min); auto using A'_wf, B'_wf.
  - unfold wsum. rewrite (list_fmap_ext (nprods A' B') colWork (seq 0 (rows A'))) by (intros _ i _; apply colWork_eq). exact HW.
  - intros i Hi. rewrite colWork_eq. apply Hf, Hi.
Qed.
Lemma nh_bin_large b : (2 ^ 17 <= N.of_nat (rows A + 1))%N -> 1 <= nts <= rows A + 1 ->
  ~ set_max_bin_ends W top nts nt min (rowptr A) (colids A) (colptr Bc) (rows A) (c_cols Bc) b.
Proof. intros HN Hn. apply (set_max_bin_large W top A' B' nts nt min b); auto using A'_wf, B'_wf. Qed.
End Bins.

(** A column of A that B does not have is looked up past the end of B.colptr. *)
Lemma intprod_oob {V} (A : csr V) (Bc : csc V) i k : wf A -> wf_csc Bc -> i < rows A -> k ∈ row_cols A i -> c_cols Bc <= k ->
  intprodRow (rowptr A) (colids A) (colptr Bc) i = Err OutOfBounds.
Proof.
  intros HA HB Hi Hk Hc. unfold intprodRow.
  destruct (row_bounds_wf A i HA Hi) as (b & e & Hb & He & Hbe & Hen & _). rewrite (get_Some _ _ _ Hb), bind_Ok, (get_Some _ _ _ He), bind_Ok.
  pose proof (wf_colids A HA) as Hl. rewrite (for_foldM (colids A) _ (fun nz c => y <- get (colptr Bc) (c + 1) ;; x <- get (colptr Bc) c ;; Ok (nz + (y - x))))
    by (try lia; intros k0 c s _ Hc0; rewrite (get_Some _ _ _ Hc0); reflexivity).
  rewrite (row_cols_eq A i b e HA Hb He) in Hk. apply elem_of_list_split in Hk as (l1 & l2 & E). rewrite E.
  assert (H : forall l1 s, (exists s', foldM (fun nz c => y <- get (colptr Bc) (c + 1) ;; x <- get (colptr Bc) c ;; Ok (nz + (y - x))) l1 s = Ok s') \/
     foldM (fun nz c => y <- get (colptr Bc) (c + 1) ;; x <- get (colptr Bc) c ;; Ok (nz + (y - x))) l1 s = Err OutOfBounds).
  { induction l0 as [|c l0 IH]; intros s; [left; eexists; reflexivity|]. rewrite foldM_cons.
    destruct (colptr Bc !! (c + 1)) as [y|] eqn:Ey; [rewrite (get_Some _ _ _ Ey), bind_Ok|right; unfold get at 1; rewrite Ey; reflexivity].
    destruct (colptr Bc !! c) as [x|] eqn:Ex; [rewrite (get_Some _ _ _ Ex), !bind_Ok; apply IH|right; unfold get at 1; rewrite Ex; reflexivity]. }
  rewrite foldM_app. destruct (H l1 0) as [[s' ->]| ->]; [|reflexivity]. rewrite bind_Ok, foldM_cons. unfold get at 1.
  rewrite lookup_ge_None_2; [reflexivity|]. pose proof (wf_len _ HB) as E'. cbn [csc_tr rowptr rows] in E'. lia.
Qed.
Lemma parfor_err row nrows dst dst' total i f : i < nrows -> row i = Err f -> ~ parfor_always row nrows dst dst' total.
Proof.
  intros Hi Hr H. assert (Hin : i ∈ seq 0 nrows) by (apply elem_of_seq; lia). apply elem_of_list_split in Hin as (l1 & l2 & E).
  destruct (H [i :: l1 ++ l2]) as (m & pt & [Ha _] & _).
  { rewrite mjoin_cons. simpl. rewrite app_nil_r, E. apply Permutation_middle. }
  assert (Ho : outcome (cells 0 dst, (fun its => parforThread row its 0) <$> [i :: l1 ++ l2]) (Err f)).
  { eapply out_fault with (t := 0); [apply rtc_refl|reflexivity|]. simpl. rewrite Hr. reflexivity. }
  apply Ha in Ho. discriminate.
Qed.

(** ** The whole call *)
Section Whole.
Context {V : Type} (dflt zero : V) (mul add : V -> V -> V) (W top nts nt min : nat) (A B M : csr V) (Bc : csc V).
Hypothesis Hco : compatible A B M.
Hypothesis HBc : wf_csc Bc.
Hypothesis Hsm : same_matrix B Bc.
Hypothesis HsA : forall i, i < rows A -> StronglySorted lt (row_cols A i).
Hypothesis Hd : distinct_rows B.
Hypothesis HsB : sorted_cols Bc.
Hypothesis Hnt : 1 <= nt.
Hypothesis HrW : rows A + nt <= W.

(** The matrix with the rows [dotRow], and [nnz0] more entries behind the last row. *)
Definition nhOut (nnz0 : nat) : csr V :=
  let C := assemble (dotRow zero mul add A B M) (rows A) (cols B) in
  mkCsr (rows C) (cols C) (nnz0 + nnz C) (rowptr C) (colids C ++ replicate nnz0 0) (values C ++ replicate nnz0 dflt).

Lemma nohash_region_end nnz0 :
  race_free (nhMem (colids M) (replicate (nnz M) zero) (replicate (rows M) 0) (replicate nt 0), nhThreads zero mul add W A Bc M nt) /\
  (exists ids vals nz th,
    always (nhMem (colids M) (replicate (nnz M) zero) (replicate (rows M) 0) (replicate nt 0), nhThreads zero mul add W A Bc M nt)
      (nhMem ids vals nz th) (replicate nt tt) /\ nhFinish dflt W A M nt nnz0 ids vals nz th = Ok (nhOut nnz0)) /\
  (forall ids vals nz th C, always (nhMem (colids M) (replicate (nnz M) zero) (replicate (rows M) 0) (replicate nt 0), nhThreads zero mul add W A Bc M nt)
      (nhMem ids vals nz th) (replicate nt tt) -> nhFinish dflt W A M nt nnz0 ids vals nz th = Ok C -> C = nhOut nnz0).
Proof.
  pose proof Hco as [HA HB HM HAB HMA HMB].
  destruct (nhRegion zero mul add W nt A Bc M (dotRow zero mul add A B M) HM) as (ids & vals & nz & th & Hal & Hrf & _ & _ & Hp & -> & ->).
  { intros i Hi. rewrite HMA in Hi. apply nhRow_ok; auto. }
  { intros i _. apply dotRow_length. } { exact Hnt. } { lia. }
  assert (E : nhFinish dflt W A M nt nnz0 ids vals ((fun i => length (dotRow zero mul add A B M i)) <$> seq 0 (rows M))
    ((fun t => pre (dotRow zero mul add A B M) (nhCut (rows M) nt (t + 1)) - pre (dotRow zero mul add A B M) (nhCut (rows M) nt t)) <$> seq 0 nt) = Ok (nhOut nnz0)).
  { rewrite (nhFinish_ok dflt W nt A M (dotRow zero mul add A B M) HM HMA Hnt ltac:(lia) nnz0 ids vals Hp). unfold nhOut, assemble. cbn [rows cols nnz rowptr colids values].
    rewrite HMA, HMB. reflexivity. }
  split; [exact Hrf|]. split; [eauto 10|]. intros ids' vals' nz' th' C Hal' HC.
  destruct (always_unique _ _ _ _ _ Hal Hal') as [Em _]. apply nhMem_inj in Em as (<- & <- & <- & <-). congruence.
Qed.
End Whole.
