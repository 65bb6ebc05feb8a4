(** Correctness of the hash row kernels. *)
From stdpp Require Import gmap sorting.
From Verif Require Import Base Spec KernelBase BaseProofs ComplProofs MsaProofs HashModel HashTableProofs.

Lemma hash_fresh_ok {V} cap : hash_ok (hash_fresh (V:=V) cap).
Proof.
  split; [split; [reflexivity|]| |]; simpl.
  - intros i e H. pose proof (lookup_lt_Some _ _ _ H) as Hl. rewrite repeat_length in Hl.
    rewrite repeat_lookup in H by exact Hl. inversion H. reflexivity.
  - lia.
  - intros i _ Hi. rewrite repeat_length in Hi. apply repeat_lookup. exact Hi.
Qed.

Section HashRows.
Context {V : Type} (w : N) (mul add : V -> V -> V).
Notation payload := (option V * option bool)%type.
Notation colval := (colval mul add).
Notation mrow := (mrow mul add).
Notation pcols := (fmap (fun p : nat * V * V => fst (fst p))).
Implicit Types (t : list (hent V)) (m : gmap nat payload).

Lemma resize_spec (acc : hash V) n capreq : fits w capreq -> n <= capreq ->
  adjustSize w capreq = Ok (length (h_tab acc)) ->
  exists k, resize w acc n = Ok (mkHash (h_tab acc) (2 ^ k) (Nat.max (h_max acc) (2 ^ k)) (h_keys acc)) /\
    n < 2 ^ k /\ 2 ^ k <= length (h_tab acc).
Proof.
  intros Hf Hle Hcap. assert (fits w n) as Hfn by (destruct Hf; split; lia).
  destruct (adjustSize_spec w n Hfn) as (k & Hk & _ & _ & Hn & _).
  exists k. pose proof (adjustSize_mono w n capreq _ _ Hf Hle Hk Hcap) as Hm.
  unfold resize. rewrite Hk, bind_Ok. rewrite assert_true by (apply Nat.leb_le; exact Hm). rewrite bind_Ok.
  split; [|lia]. do 2 f_equal. destruct (Nat.ltb_spec (h_max acc) (2 ^ k)); lia.
Qed.

(** Leaving a row. *)
Lemma row_done (acc : hash V) kk t : hash_ok acc -> 2 ^ kk <= length (h_tab acc) ->
  frame kk (h_tab acc) t -> (forall i e, t !! i = Some e -> hk e = None) ->
  hash_ok (mkHash t (2 ^ kk) (Nat.max (h_max acc) (2 ^ kk)) []).
Proof.
  intros [[Hk Hc] Hm Hp] Hle [Hl Hfr] Hcl. split; [split; [reflexivity|exact Hcl]| |]; simpl.
  - rewrite Hl. lia.
  - intros i Hi Hi'. rewrite Hfr by lia. apply Hp; lia.
Qed.

Section Steps.
Context (kk : nat).
Notation sz := (2 ^ kk).

(** *** Insertion of keys *)
Lemma insertKey_rep t m mx ks key : hrep w kk t m -> size m < sz ->
  exists t' m' b, insertKey w (mkHash t sz mx ks) key = Ok (mkHash t' sz mx ks, b) /\ frame kk t t' /\
    hrep w kk t' m' /\ (forall k, k <> key -> m' !! k = m !! k) /\
    match m !! key with
    | Some _ => m' !! key = m !! key
    | None => exists v1, m' !! key = Some (v1, Some false)
    end.
Proof.
  intros Hrep Hsz. destruct (findIdx_rep w kk t m mx ks key Hrep Hsz) as (idx & e & Hidx & Hlt & He & _ & Hm).
  unfold insertKey. rewrite Hidx, bind_Ok. cbn [h_tab]. rewrite (get_Some _ _ _ He), bind_Ok.
  destruct (m !! key) as [p|] eqn:Em.
  - destruct Hm as [Hk _]. rewrite Hk. exists t, m, false. split; [reflexivity|].
    split; [apply frame_refl|]. auto.
  - destruct Hm as [Hk _]. rewrite Hk. rewrite set_Ok by (eapply lookup_lt_Some; eauto). rewrite bind_Ok.
    exists (<[idx:=mkHent (Some key) (hv1 e) (Some false)]> t), (<[key:=(hv1 e, Some false)]> m), true.
    split; [reflexivity|]. split; [apply frame_insert; [apply frame_refl|exact Hlt]|].
    split; [|split].
    + exact (hrep_fill w kk t m mx ks key idx (mkHent (Some key) (hv1 e) (Some false)) Hrep Hsz Em Hidx eq_refl).
    + intros k Hne. apply lookup_insert_ne. auto.
    + exists (hv1 e). apply lookup_insert.
Qed.

Lemma insertOnly_rep track t m mx ks key : hrep w kk t m -> size m < sz ->
  exists t' m', insertOnly w track (mkHash t sz mx ks) key =
      Ok (mkHash t' sz mx (if bool_decide (m !! key = None) && track then ks ++ [key] else ks),
          bool_decide (m !! key = None)) /\ frame kk t t' /\
    hrep w kk t' m' /\ (forall k, k <> key -> m' !! k = m !! k) /\ is_Some (m' !! key).
Proof.
  intros Hrep Hsz. destruct (findIdx_rep w kk t m mx ks key Hrep Hsz) as (idx & e & Hidx & Hlt & He & _ & Hm).
  unfold insertOnly. rewrite Hidx, bind_Ok. cbn [h_tab]. rewrite (get_Some _ _ _ He), bind_Ok.
  destruct (m !! key) as [p|] eqn:Em.
  - destruct Hm as [Hk _]. rewrite Hk. exists t, m. split; [reflexivity|].
    split; [apply frame_refl|]. rewrite Em. eauto.
  - destruct Hm as [Hk _]. rewrite Hk. rewrite set_Ok by (eapply lookup_lt_Some; eauto). rewrite bind_Ok.
    exists (<[idx:=mkHent (Some key) (hv1 e) (hv2 e)]> t), (<[key:=(hv1 e, hv2 e)]> m).
    split; [destruct track; reflexivity|]. split; [apply frame_insert; [apply frame_refl|exact Hlt]|].
    split; [|split].
    + exact (hrep_fill w kk t m mx ks key idx (mkHent (Some key) (hv1 e) (hv2 e)) Hrep Hsz Em Hidx eq_refl).
    + intros k Hne. apply lookup_insert_ne. auto.
    + rewrite lookup_insert. eauto.
Qed.

(** Inserting the mask columns of a row (key-value table). *)
Lemma insertMask_spec t0 mx ks mask : hrep w kk t0 ∅ -> length mask < sz ->
  exists t m, foldM (fun acc c => '(acc', _) <- insertKey w acc c ;; Ok acc') mask (mkHash t0 sz mx ks) =
      Ok (mkHash t sz mx ks) /\ frame kk t0 t /\ hrep w kk t m /\
    forall k, if decide (k ∈ mask) then exists v1, m !! k = Some (v1, Some false) else m !! k = None.
Proof.
  intros Hrep Hlen.
  destruct (foldM_inv (fun done acc => exists t m, acc = mkHash t sz mx ks /\ frame kk t0 t /\ hrep w kk t m /\
     forall k, if decide (k ∈ done) then exists v1, m !! k = Some (v1, Some false) else m !! k = None)
     (fun acc c => '(acc', _) <- insertKey w acc c ;; Ok acc') mask (mkHash t0 sz mx ks))
    as (acc & Hacc & t & m & -> & Hfr & Hr & Hk).
  - exists t0, ∅. split; [reflexivity|]. split; [apply frame_refl|]. split; [exact Hrep|].
    intros k. rewrite decide_False by (intros H; inversion H). apply lookup_empty.
  - intros done c rest acc Hmask (t & m & -> & Hfr & Hr & Hk).
    assert (size m < sz) as Hsz.
    { assert (size m <= length done); [|subst mask; rewrite app_length in Hlen; lia].
      apply size_le_list. intros k [p Hp]. specialize (Hk k). destruct (decide (k ∈ done)); [assumption|congruence]. }
    destruct (insertKey_rep t m mx ks c Hr Hsz) as (t' & m' & b & Hi & Hfr' & Hr' & Hoth & Hkey).
    exists (mkHash t' sz mx ks). rewrite Hi. split; [reflexivity|].
    exists t', m'. split; [reflexivity|]. split; [eapply frame_trans; eauto|]. split; [exact Hr'|].
    intros k. destruct (decide (k = c)) as [->|Hne].
    + rewrite decide_True by (apply elem_of_app; right; left). specialize (Hk c).
      destruct (decide (c ∈ done)).
      * destruct Hk as [v1 Hv1]. rewrite Hv1 in Hkey. exists v1. congruence.
      * rewrite Hk in Hkey. exact Hkey.
    + rewrite Hoth by exact Hne. specialize (Hk k).
      rewrite (decide_ext (k ∈ done ++ [c]) (k ∈ done)); [exact Hk|].
      rewrite elem_of_app, elem_of_list_singleton. tauto.
  - exists t, m. auto.
Qed.

(** *** Gathering one key *)
Lemma gatherKey_true t (S : nat -> Prop) m mx ks o key v : twf w sz t S -> tmap t m -> ~ S key ->
  m !! key = Some (Some v, Some true) -> length (o_done o) < o_cap o ->
  exists t', gatherKey w (mkHash t sz mx ks, o) key =
      Ok (mkHash t' sz mx ks, mkOut (o_done o ++ [(key, v)]) (o_cap o)) /\
    frame kk t t' /\ twf w sz t' S /\ tmap t' (delete key m).
Proof.
  intros Hw Hm HS Hp Ho.
  destruct (findIdxForce_rep w kk t S m mx ks key _ Hw Hm Hp) as (idx & e & Hidx & Hlt & He & Hk & Hpe).
  inversion Hpe as [[H1 H2]].
  assert (kat t idx = Some key) as Hkat by (apply kat_Some; eauto).
  unfold gatherKey. rewrite Hidx, bind_Ok. cbn [h_tab]. rewrite (get_Some _ _ _ He), bind_Ok.
  rewrite H1, H2, Hk. rewrite emit_Ok by exact Ho. rewrite bind_Ok.
  pose proof (lookup_lt_Some _ _ _ He) as Hl. rewrite set_Ok by exact Hl. rewrite bind_Ok.
  eexists. split; [reflexivity|]. split; [apply frame_insert; [apply frame_refl|exact Hlt]|].
  split; [eapply twf_hole; eauto|]. eapply tmap_empty; eauto. apply (tw_inj _ _ _ _ Hw).
Qed.

Lemma gatherKey_false t (S : nat -> Prop) m mx ks o key v : twf w sz t S -> tmap t m -> ~ S key ->
  m !! key = Some (v, Some false) ->
  exists t', gatherKey w (mkHash t sz mx ks, o) key = Ok (mkHash t' sz mx ks, o) /\
    frame kk t t' /\ twf w sz t' S /\ tmap t' (delete key m).
Proof.
  intros Hw Hm HS Hp.
  destruct (findIdxForce_rep w kk t S m mx ks key _ Hw Hm Hp) as (idx & e & Hidx & Hlt & He & Hk & Hpe).
  inversion Hpe as [[H1 H2]].
  assert (kat t idx = Some key) as Hkat by (apply kat_Some; eauto).
  unfold gatherKey. rewrite Hidx, bind_Ok. cbn [h_tab]. rewrite (get_Some _ _ _ He), bind_Ok.
  rewrite H2. pose proof (lookup_lt_Some _ _ _ He) as Hl. rewrite set_Ok by exact Hl. rewrite bind_Ok.
  eexists. split; [reflexivity|]. split; [apply frame_insert; [apply frame_refl|exact Hlt]|].
  split; [eapply twf_hole; eauto|]. eapply tmap_empty; eauto. apply (tw_inj _ _ _ _ Hw).
Qed.

(** *** Plain mask, numeric *)
(** State of the map after the products [ps]. *)
Definition kst (mask : list nat) ps m : Prop := forall k,
  if decide (k ∈ mask) then
    match colval ps k with
    | Some v => m !! k = Some (Some v, Some true)
    | None => exists v1, m !! k = Some (v1, Some false)
    end
  else m !! k = None.

Lemma kst_size mask ps m : kst mask ps m -> length mask < sz -> size m < sz.
Proof.
  intros Hk Hlen. assert (size m <= length mask); [|lia]. apply size_le_list.
  intros k [p Hp]. specialize (Hk k). destruct (decide (k ∈ mask)); [assumption|congruence].
Qed.

Definition hstep (acc : hash V) (p : nat * V * V) : res (hash V) :=
  let '(c, a, b) := p in
  r <- find w acc c ;;
  match r with
  | None => Ok acc
  | Some idx =>
    e <- get (h_tab acc) idx ;;
    match hv2 e with
    | None => Err Uninit
    | Some true =>
      match hv1 e with
      | None => Err Uninit
      | Some v =>
        t <- set_ (h_tab acc) idx (mkHent (hk e) (Some (add v (mul a b))) (hv2 e)) ;;
        Ok (with_tab acc t)
      end
    | Some false =>
      t <- set_ (h_tab acc) idx (mkHent (hk e) (Some (mul a b)) (Some true)) ;;
      Ok (with_tab acc t)
    end
  end.

Lemma hashBody_hstep (A B : csr V) j k c a b acc :
  values A !! j = Some a -> colids B !! k = Some c -> values B !! k = Some b ->
  hashBody w mul add A B j k acc = hstep acc (c, a, b).
Proof.
  intros Ha Hc Hb. unfold hashBody, hstep. rewrite (get_Some _ _ _ Hc), bind_Ok.
  rewrite (get_Some _ _ _ Ha), (get_Some _ _ _ Hb). reflexivity.
Qed.

Lemma hstep_spec mask ps t m mx ks c a b : hrep w kk t m -> kst mask ps m -> length mask < sz ->
  exists t' m', hstep (mkHash t sz mx ks) (c, a, b) = Ok (mkHash t' sz mx ks) /\ frame kk t t' /\
    hrep w kk t' m' /\ kst mask (ps ++ [(c, a, b)]) m'.
Proof.
  intros Hr Hk Hlen. pose proof (kst_size _ _ _ Hk Hlen) as Hsz.
  pose proof (find_rep w kk t m mx ks c Hr Hsz) as Hf. unfold hstep.
  pose proof (Hk c) as Hkc. destruct (decide (c ∈ mask)) as [Hin|Hin].
  - destruct (colval ps c) as [v|] eqn:Ecv.
    + rewrite Hkc in Hf. destruct Hf as (idx & e & Hfind & Hlt & He & Hke & Hpe).
      inversion Hpe as [[H1 H2]]. rewrite Hfind, bind_Ok. cbn [h_tab]. rewrite (get_Some _ _ _ He), bind_Ok.
      rewrite H1, H2, Hke. rewrite set_Ok by (eapply lookup_lt_Some; eauto). rewrite bind_Ok.
      exists (<[idx:=mkHent (Some c) (Some (add v (mul a b))) (Some true)]> t),
             (<[c:=(Some (add v (mul a b)), Some true)]> m).
      split; [reflexivity|]. split; [apply frame_insert; [apply frame_refl|exact Hlt]|]. split.
      * exact (hrep_overwrite w kk t m c idx e (mkHent (Some c) (Some (add v (mul a b))) (Some true)) Hr He Hke eq_refl).
      * intros k. rewrite colval_snoc. destruct (decide (c = k)) as [<-|Hne].
        -- rewrite decide_True by exact Hin. rewrite Ecv. apply lookup_insert.
        -- rewrite lookup_insert_ne by exact Hne. apply Hk.
    + destruct Hkc as [v1 Hkc]. rewrite Hkc in Hf. destruct Hf as (idx & e & Hfind & Hlt & He & Hke & Hpe).
      inversion Hpe as [[H1 H2]]. rewrite Hfind, bind_Ok. cbn [h_tab]. rewrite (get_Some _ _ _ He), bind_Ok.
      rewrite H2, Hke. rewrite set_Ok by (eapply lookup_lt_Some; eauto). rewrite bind_Ok.
      exists (<[idx:=mkHent (Some c) (Some (mul a b)) (Some true)]> t),
             (<[c:=(Some (mul a b), Some true)]> m).
      split; [reflexivity|]. split; [apply frame_insert; [apply frame_refl|exact Hlt]|]. split.
      * exact (hrep_overwrite w kk t m c idx e (mkHent (Some c) (Some (mul a b)) (Some true)) Hr He Hke eq_refl).
      * intros k. rewrite colval_snoc. destruct (decide (c = k)) as [<-|Hne].
        -- rewrite decide_True by exact Hin. rewrite Ecv. apply lookup_insert.
        -- rewrite lookup_insert_ne by exact Hne. apply Hk.
  - rewrite Hkc in Hf. rewrite Hf, bind_Ok. exists t, m. split; [reflexivity|].
    split; [apply frame_refl|]. split; [exact Hr|]. intros k. rewrite colval_snoc.
    destruct (decide (c = k)) as [<-|Hne]; [|apply Hk]. rewrite decide_False by exact Hin. exact Hkc.
Qed.

Lemma mrow_snoc ps l c : mrow ps (l ++ [c]) =
  mrow ps l ++ match colval ps c with Some v => [(c, v)] | None => [] end.
Proof. unfold ComplProofs.mrow. rewrite omap_app. f_equal. simpl. destruct (colval ps c); reflexivity. Qed.

Lemma gatherMask_spec mask ps t m mx ks o : hrep w kk t m -> kst mask ps m -> NoDup mask ->
  length (o_done o) + length (mrow ps mask) <= o_cap o ->
  exists t', foldM (gatherKey w) mask (mkHash t sz mx ks, o) =
      Ok (mkHash t' sz mx ks, mkOut (o_done o ++ mrow ps mask) (o_cap o)) /\ frame kk t t' /\
    forall i e, t' !! i = Some e -> hk e = None.
Proof.
  intros [Hw Hm] Hk Hnd Ho. apply twf_none in Hw.
  destruct (foldM_inv (fun done so => exists t' m', so = (mkHash t' sz mx ks, mkOut (o_done o ++ mrow ps done) (o_cap o)) /\
      frame kk t t' /\ twf w sz t' (fun _ => False) /\ tmap t' m' /\
      (forall k, m' !! k = if decide (k ∈ done) then None else m !! k)) (gatherKey w) mask (mkHash t sz mx ks, o))
    as (so & Hso & t' & m' & -> & Hfr & Hw' & Hm' & Hk').
  - exists t, m. split; [unfold ComplProofs.mrow; simpl; rewrite app_nil_r; destruct o; reflexivity|]. split; [apply frame_refl|].
    split; [exact Hw|]. split; [exact Hm|]. intros k. rewrite decide_False; [reflexivity|]. intros H; inversion H.
  - intros done c rest so Hmask (t1 & m1 & -> & Hfr & Hw1 & Hm1 & Hk1).
    assert (c ∉ done) as Hnin.
    { rewrite Hmask in Hnd. apply NoDup_app in Hnd as (_ & Hd & _). intros H. apply (Hd c H). left. }
    assert (c ∈ mask) as Hin by (rewrite Hmask; apply elem_of_app; right; left).
    pose proof (Hk1 c) as Hc. rewrite decide_False in Hc by exact Hnin.
    pose proof (Hk c) as Hkc. rewrite decide_True in Hkc by exact Hin.
    assert (forall m2 : gmap nat payload, m2 = delete c m1 -> forall k, m2 !! k = if decide (k ∈ done ++ [c]) then None else m !! k) as Hdel.
    { intros m2 -> k. destruct (decide (c = k)) as [<-|Hne].
      - rewrite lookup_delete, decide_True; [reflexivity|]. apply elem_of_app; right; left.
      - rewrite lookup_delete_ne by exact Hne. rewrite Hk1. 
        rewrite (decide_ext (k ∈ done ++ [c]) (k ∈ done)); [reflexivity|].
        rewrite elem_of_app, elem_of_list_singleton. split; [intros [|]; [auto|congruence]|auto]. }
    rewrite mrow_snoc. destruct (colval ps c) as [v|] eqn:Ecv.
    + destruct (gatherKey_true t1 (fun _ => False) m1 mx ks (mkOut (o_done o ++ mrow ps done) (o_cap o)) c v)
        as (t2 & Hg & Hfr2 & Hw2 & Hm2); auto.
      * congruence.
      * simpl. rewrite app_length. subst mask.
        replace (done ++ c :: rest) with ((done ++ [c]) ++ rest) in Ho by (rewrite <- app_assoc; reflexivity).
        unfold ComplProofs.mrow in Ho. rewrite omap_app, app_length in Ho. fold (mrow ps (done ++ [c])) in Ho.
        rewrite mrow_snoc, Ecv, app_length in Ho. simpl in Ho. unfold ComplProofs.mrow in *. lia.
      * rewrite Hg. eexists. split; [reflexivity|]. exists t2, (delete c m1). cbn [o_done o_cap].
        rewrite <- app_assoc. split; [reflexivity|]. split; [eapply frame_trans; eauto|]. auto.
    + destruct Hkc as [v1 Hkc].
      destruct (gatherKey_false t1 (fun _ => False) m1 mx ks (mkOut (o_done o ++ mrow ps done) (o_cap o)) c v1)
        as (t2 & Hg & Hfr2 & Hw2 & Hm2); auto.
      * congruence.
      * rewrite Hg. eexists. split; [reflexivity|]. exists t2, (delete c m1).
        rewrite app_nil_r. split; [reflexivity|]. split; [eapply frame_trans; eauto|]. auto.
  - exists t'. split; [exact Hso|]. split; [exact Hfr|].
    apply tmap_empty_clean. replace (∅ : gmap nat payload) with m'; [exact Hm'|].
    apply map_eq. intros k. rewrite Hk', lookup_empty. destruct (decide (k ∈ mask)) as [|Hin]; [reflexivity|].
    specialize (Hk k). rewrite decide_False in Hk by exact Hin. exact Hk.
Qed.
End Steps.

Lemma clean_hrep kk (acc : hash V) : hash_clean acc -> 2 ^ kk <= length (h_tab acc) -> hrep w kk (h_tab acc) ∅.
Proof. intros [_ Hc] Hl. apply hrep_empty; assumption. Qed.

Theorem hashNumericRow_correct (A B M : csr V) row (acc : hash V) o capreq :
  compatible A B M -> row < rows A -> NoDup (row_cols M row) ->
  hash_ok acc -> fits w capreq -> adjustSize w capreq = Ok (length (h_tab acc)) ->
  length (row_cols M row) <= capreq ->
  length (o_done o) + length (spec_row mul add A B M row) <= o_cap o ->
  exists acc', hashNumericRow w mul add A B M row acc o =
      Ok (acc', mkOut (o_done o ++ spec_row mul add A B M row) (o_cap o)) /\
    hash_ok acc' /\ length (h_tab acc') = length (h_tab acc).
Proof.
  intros [HA HB HM Hi Hr Hc] Hrow Hnd Hok Hfit Hcap Hmask Ho.
  assert (row < rows M) as HrM by lia.
  destruct (row_bounds_wf M row HM HrM) as (mb & me & Hmb & Hme & Hle & Hnz & Hrb).
  assert (length (row_cols M row) = me - mb) as Hlen.
  { rewrite row_cols_length. eapply row_entries_length; eauto. }
  unfold hashNumericRow. rewrite Hrb, bind_Ok.
  destruct (resize_spec acc (me - mb) capreq Hfit ltac:(lia) Hcap) as (kk & Hres & Hn & Hsz).
  rewrite Hres, bind_Ok. pose proof (ho_clean _ Hok) as [Hkeys _]. rewrite Hkeys.
  rewrite mask_loop_foldM by assumption.
  destruct (insertMask_spec kk (h_tab acc) (Nat.max (h_max acc) (2 ^ kk)) [] (row_cols M row)) as (t1 & m1 & -> & Hf1 & Hr1 & Hk1).
  { apply clean_hrep; [apply ho_clean; exact Hok|exact Hsz]. }
  { lia. }
  rewrite bind_Ok.
  rewrite (prod_loop_foldM A B row _ hstep) by
    (auto; intros; apply hashBody_hstep; assumption).
  set (mx := Nat.max (h_max acc) (2 ^ kk)).
  destruct (foldM_inv (fun ps acc => exists t m, acc = mkHash t (2 ^ kk) mx [] /\ frame kk t1 t /\
      hrep w kk t m /\ kst (row_cols M row) ps m) hstep (row_prods A B row) (mkHash t1 (2 ^ kk) mx []))
    as (acc2 & -> & t2 & m2 & -> & Hf2 & Hr2 & Hk2).
  { exists t1, m1. split; [reflexivity|]. split; [apply frame_refl|]. split; [exact Hr1|].
    intros k. rewrite colval_nil. apply Hk1. }
  { intros ps [[c a] b] rest s _ (t & m & -> & Hf & Hrp & Hk).
    destruct (hstep_spec kk (row_cols M row) ps t m mx [] c a b Hrp Hk) as (t' & m' & Hs & Hf' & Hr' & Hk'); [lia|].
    eexists. split; [exact Hs|]. exists t', m'. split; [reflexivity|]. split; [eapply frame_trans; eauto|]. auto. }
  rewrite bind_Ok. rewrite mask_loop_foldM by assumption.
  destruct (gatherMask_spec kk (row_cols M row) (row_prods A B row) t2 m2 mx [] o Hr2 Hk2 Hnd) as (t3 & Hg & Hf3 & Hcl).
  { rewrite mrow_spec. exact Ho. }
  change (foldM (fun s c => gatherKey w s c)) with (foldM (gatherKey (V:=V) w)).
  rewrite Hg, mrow_spec. eexists. split; [reflexivity|]. split.
  - apply row_done; auto. eapply frame_trans; [exact Hf1|]. eapply frame_trans; eauto.
  - cbn [h_tab]. destruct Hf1, Hf2, Hf3. congruence.
Qed.

(** *** Plain mask, symbolic *)
Section Sym.
Context (kk : nat).
Notation sz := (2 ^ kk).

Lemma insertMaskOnly_spec t0 mx mask : hrep w kk t0 ∅ -> length mask < sz ->
  exists t m, foldM (fun acc c => '(acc', _) <- insertOnly w false acc c ;; Ok acc') mask (mkHash t0 sz mx []) =
      Ok (mkHash t sz mx []) /\ frame kk t0 t /\ hrep w kk t m /\
    forall k, is_Some (m !! k) <-> k ∈ mask.
Proof.
  intros Hrep Hlen.
  destruct (foldM_inv (fun done acc => exists t m, acc = mkHash t sz mx [] /\ frame kk t0 t /\ hrep w kk t m /\
     forall k, is_Some (m !! k) <-> k ∈ done)
     (fun acc c => '(acc', _) <- insertOnly w false acc c ;; Ok acc') mask (mkHash t0 sz mx []))
    as (acc & Hacc & t & m & -> & Hfr & Hr & Hk).
  - exists t0, ∅. split; [reflexivity|]. split; [apply frame_refl|]. split; [exact Hrep|].
    intros k. rewrite lookup_empty. split; [intros []; discriminate|intros H; inversion H].
  - intros done c rest acc Hmask (t & m & -> & Hfr & Hr & Hk).
    assert (size m < sz) as Hsz.
    { assert (size m <= length done); [|subst mask; rewrite app_length in Hlen; lia].
      apply size_le_list. intros k. apply Hk. }
    destruct (insertOnly_rep kk false t m mx [] c Hr Hsz) as (t' & m' & Hi & Hfr' & Hr' & Hoth & Hkey).
    rewrite andb_false_r in Hi.
    exists (mkHash t' sz mx []). rewrite Hi. split; [reflexivity|].
    exists t', m'. split; [reflexivity|]. split; [eapply frame_trans; eauto|]. split; [exact Hr'|].
    intros k. rewrite elem_of_app, elem_of_list_singleton. destruct (decide (k = c)) as [->|Hne].
    + tauto.
    + rewrite Hoth by exact Hne. rewrite Hk. tauto.
  - exists t, m. auto.
Qed.

Definition sstep (so : hash V * nat) (p : nat * V * V) : res (hash V * nat) :=
  let '(acc, n) := so in
  '(acc', erased) <- hErase w acc (fst (fst p)) ;;
  Ok (acc', if erased : bool then n + 1 else n).

Lemma hResetStates_spec t mx : sz <= length t -> (forall i, sz <= i -> kat t i = None) ->
  exists t', hResetStates (mkHash t sz mx []) = Ok (mkHash t' sz mx []) /\ frame kk t t' /\
    forall i e, t' !! i = Some e -> hk e = None.
Proof.
  intros Hl Hout. unfold hResetStates. cbn [h_size h_tab].
  destruct (for_inv (fun i t' => frame kk t t' /\ (forall j, j < i -> kat t' j = None) /\ (forall j, sz <= j -> kat t' j = None))
    (fun i t => e <- get t i ;; set_ t i (mkHent None (hv1 e) (hv2 e))) 0 sz t) as (t' & Ht' & Hfr & Hlo & Hhi).
  - lia.
  - split; [apply frame_refl|]. split; [lia|exact Hout].
  - intros i t1 [_ Hi] (Hfr & Hlo & Hhi). destruct Hfr as [Hfl Hfr].
    destruct (lookup_lt_is_Some_2 t1 i) as [e He]; [lia|].
    rewrite (get_Some _ _ _ He), bind_Ok. rewrite set_Ok by lia. eexists. split; [reflexivity|].
    split; [apply frame_insert; [split; assumption|exact Hi]|]. split.
    + intros j Hj. rewrite kat_insert by lia. destruct (decide (i = j)) as [<-|]; [reflexivity|]. apply Hlo. lia.
    + intros j Hj. rewrite kat_insert by lia. destruct (decide (i = j)) as [<-|]; [reflexivity|]. auto.
  - rewrite Ht', bind_Ok. exists t'. split; [reflexivity|]. split; [exact Hfr|].
    intros i e He. assert (kat t' i = None) as H.
    { destruct (Nat.lt_ge_cases i sz); auto. }
    unfold kat in H. rewrite He in H. exact H.
Qed.

Lemma sstep_fold mask ps t m mx : NoDup mask -> hrep w kk t m -> length mask < sz ->
  (forall k, is_Some (m !! k) <-> k ∈ mask) ->
  exists t' m', foldM sstep ps (mkHash t sz mx [], 0) = Ok (mkHash t' sz mx [], cnt mask (pcols ps)) /\
    frame kk t t' /\ hrep w kk t' m'.
Proof.
  intros Hnd Hr Hlen Hk.
  destruct (foldM_inv (fun done so => exists t' m', so = (mkHash t' sz mx [], cnt mask (pcols done)) /\
      frame kk t t' /\ hrep w kk t' m' /\ forall k, is_Some (m' !! k) <-> k ∈ mask /\ k ∉ pcols done)
    sstep ps (mkHash t sz mx [], 0)) as (so & Hso & t' & m' & -> & Hfr & Hr' & Hk').
  - exists t, m. split; [unfold cnt; f_equal; clear; induction mask; auto|]. split; [apply frame_refl|].
    split; [exact Hr|]. intros k. rewrite Hk. split; [intros H; split; [exact H|intros H'; inversion H']|tauto].
  - intros done [[c a] b] rest so Hps (t1 & m1 & -> & Hfr & Hr1 & Hk1).
    assert (size m1 < sz) as Hsz.
    { assert (size m1 <= length mask); [|lia]. apply size_le_list. intros k H. apply Hk1 in H. tauto. }
    destruct (hErase_rep w kk t1 m1 mx [] c Hr1 Hsz) as (t2 & He & Hfr2 & Hr2).
    unfold sstep. cbn [fst]. rewrite He, bind_Ok. eexists. split; [reflexivity|].
    exists t2, (delete c m1). split; [|split; [eapply frame_trans; eauto|split; [exact Hr2|]]].
    + f_equal. rewrite fmap_app. cbn [fmap list_fmap fst]. rewrite (cnt_snoc mask _ c Hnd).
      destruct (decide (c ∈ mask)) as [Hd|Hd]; [destruct (decide (c ∈ pcols done)) as [Hd'|Hd']|].
      * rewrite bool_decide_eq_false_2 by (rewrite Hk1; tauto). reflexivity.
      * rewrite bool_decide_eq_true_2 by (apply Hk1; tauto). reflexivity.
      * rewrite bool_decide_eq_false_2 by (rewrite Hk1; tauto). reflexivity.
    + intros k. rewrite fmap_app, elem_of_app. cbn [fmap list_fmap fst]. rewrite elem_of_list_singleton.
      destruct (decide (c = k)) as [<-|Hne].
      * rewrite lookup_delete. split; [intros []; discriminate|tauto].
      * rewrite lookup_delete_ne by exact Hne. rewrite Hk1. split; intros [H1 H2]; (split; [exact H1|]); intuition congruence.
  - exists t', m'. auto.
Qed.
End Sym.

Theorem hashSymbolicRow_correct (A B M : csr V) row (acc : hash V) capreq :
  compatible A B M -> row < rows A -> NoDup (row_cols M row) ->
  hash_ok acc -> fits w capreq -> adjustSize w capreq = Ok (length (h_tab acc)) ->
  length (row_cols M row) <= capreq ->
  exists acc', hashSymbolicRow w A B M row acc = Ok (acc', length (spec_row mul add A B M row)) /\
    hash_ok acc' /\ length (h_tab acc') = length (h_tab acc).
Proof.
  intros [HA HB HM Hi Hr Hc] Hrow Hnd Hok Hfit Hcap Hmask.
  assert (row < rows M) as HrM by lia.
  destruct (row_bounds_wf M row HM HrM) as (mb & me & Hmb & Hme & Hle & Hnz & Hrb).
  assert (length (row_cols M row) = me - mb) as Hlen.
  { rewrite row_cols_length. eapply row_entries_length; eauto. }
  unfold hashSymbolicRow. rewrite Hrb, bind_Ok.
  destruct (resize_spec acc (me - mb) capreq Hfit ltac:(lia) Hcap) as (kk & Hres & Hn & Hsz).
  rewrite Hres, bind_Ok. pose proof (ho_clean _ Hok) as [Hkeys _]. rewrite Hkeys.
  rewrite mask_loop_foldM by assumption.
  set (mx := Nat.max (h_max acc) (2 ^ kk)).
  destruct (insertMaskOnly_spec kk (h_tab acc) mx (row_cols M row)) as (t1 & m1 & -> & Hf1 & Hr1 & Hk1).
  { apply clean_hrep; [apply ho_clean; exact Hok|exact Hsz]. }
  { lia. }
  rewrite bind_Ok.
  rewrite (prod_loop_foldM A B row _ sstep).
  2-5: assumption.
  2:{ intros j k [ac n] c a b _ Hcb _ _. rewrite (get_Some _ _ _ Hcb). reflexivity. }
  destruct (sstep_fold kk (row_cols M row) (row_prods A B row) t1 m1 mx Hnd Hr1 ltac:(lia) Hk1)
    as (t2 & m2 & -> & Hf2 & [Hw2 Hm2]).
  rewrite bind_Ok.
  destruct (hResetStates_spec kk t2 mx (tw_len _ _ _ _ Hw2) (tw_out _ _ _ _ Hw2)) as (t3 & -> & Hf3 & Hcl).
  rewrite bind_Ok. eexists. split; [|split].
  - do 2 f_equal. rewrite row_prods_cols. symmetry. apply spec_row_length.
  - apply row_done; auto. eapply frame_trans; [exact Hf1|]. eapply frame_trans; eauto.
  - cbn [h_tab]. destruct Hf1, Hf2, Hf3. congruence.
Qed.

(** *** Complemented mask, numeric *)
Section Compl.
Context (kk : nat).
Notation sz := (2 ^ kk).

(** State after the products [ps]: mask columns carry value2 = false, other columns their value. *)
Definition cst (mask : list nat) ps m : Prop := forall k,
  if decide (k ∈ mask) then exists v1, m !! k = Some (v1, Some false)
  else m !! k = match colval ps k with Some v => Some (Some v, Some true) | None => None end.

(** Tracked keys after the products. *)
Definition ckeys (mask : list nat) (ps : list (nat * V * V)) : list nat :=
  filter (fun j => j ∉ mask) (first_touch (pcols ps)).

Lemma ckeys_elem mask ps k : k ∈ ckeys mask ps <-> k ∉ mask /\ k ∈ pcols ps.
Proof. unfold ckeys. rewrite elem_of_list_filter, elem_of_first_touch. reflexivity. Qed.

Lemma ckeys_snoc mask ps c a b : ckeys mask (ps ++ [(c, a, b)]) =
  if decide (c ∉ mask /\ c ∉ pcols ps) then ckeys mask ps ++ [c] else ckeys mask ps.
Proof.
  unfold ckeys. rewrite fmap_app. cbn [fmap list_fmap fst]. rewrite first_touch_snoc.
  destruct (decide (c ∈ pcols ps)) as [H|H].
  - rewrite decide_False by tauto. reflexivity.
  - rewrite filter_app, filter_cons, filter_nil. destruct (decide (c ∉ mask)) as [H'|H'].
    + rewrite decide_True by tauto. reflexivity.
    + rewrite decide_False by tauto. rewrite app_nil_r. reflexivity.
Qed.

Lemma ckeys_NoDup mask ps : NoDup (ckeys mask ps).
Proof. apply NoDup_filter, NoDup_first_touch. Qed.

Lemma colval_Some_pcols ps k : is_Some (colval ps k) <-> k ∈ pcols ps.
Proof.
  destruct (decide (k ∈ pcols ps)) as [H|H].
  - split; [auto|]. intros _. destruct (colval ps k) eqn:E; [eauto|].
    apply colval_None in E. tauto.
  - split; [|tauto]. intros [v Hv]. apply (colval_None mul add) in H. congruence.
Qed.

Lemma cst_size mask ps full m : cst mask ps m -> (forall k, k ∈ pcols ps -> k ∈ pcols full) ->
  length mask + length (ckeys mask full) < sz -> size m < sz.
Proof.
  intros Hk Hsub Hlen. assert (size m <= length (mask ++ ckeys mask full)) as H; [|rewrite app_length in H; lia].
  apply size_le_list. intros k [p Hp]. specialize (Hk k). rewrite elem_of_app.
  destruct (decide (k ∈ mask)) as [|Hin]; [auto|]. right. apply ckeys_elem. split; [exact Hin|].
  apply Hsub, colval_Some_pcols. destruct (colval ps k); [eauto|congruence].
Qed.

Definition cstep (acc : hash V) (p : nat * V * V) : res (hash V) :=
  let '(c, a, b) := p in
  idx <- findIdx w acc c ;;
  e <- get (h_tab acc) idx ;;
  match hk e with
  | None => insertAt acc idx c (mul a b)
  | Some _ =>
    match hv2 e with
    | None => Err Uninit
    | Some true =>
      match hv1 e with
      | None => Err Uninit
      | Some v =>
        t <- set_ (h_tab acc) idx (mkHent (hk e) (Some (add v (mul a b))) (hv2 e)) ;;
        Ok (with_tab acc t)
      end
    | Some false => Ok acc
    end
  end.

Lemma hashBodyC_cstep (A B : csr V) j k c a b acc :
  values A !! j = Some a -> colids B !! k = Some c -> values B !! k = Some b ->
  hashBodyC w mul add A B j k acc = cstep acc (c, a, b).
Proof.
  intros Ha Hc Hb. unfold hashBodyC, cstep. rewrite (get_Some _ _ _ Hc), bind_Ok.
  rewrite (get_Some _ _ _ Ha), (get_Some _ _ _ Hb). reflexivity.
Qed.

Lemma cstep_spec mask ps t m mx c a b : hrep w kk t m -> twf w sz t (fun k => k ∈ mask) -> cst mask ps m ->
  size m < sz ->
  exists t' m', cstep (mkHash t sz mx (ckeys mask ps)) (c, a, b) =
      Ok (mkHash t' sz mx (ckeys mask (ps ++ [(c, a, b)]))) /\ frame kk t t' /\
    hrep w kk t' m' /\ twf w sz t' (fun k => k ∈ mask) /\ cst mask (ps ++ [(c, a, b)]) m'.
Proof.
  intros Hr Hwm Hk Hsz. rewrite ckeys_snoc.
  destruct (findIdx_rep w kk t m mx (ckeys mask ps) c Hr Hsz) as (idx & e & Hidx & Hlt & He & Hpath & Hm).
  unfold cstep. rewrite Hidx, bind_Ok. cbn [h_tab]. rewrite (get_Some _ _ _ He), bind_Ok.
  pose proof (Hk c) as Hkc. pose proof (lookup_lt_Some _ _ _ He) as Hl.
  destruct (decide (c ∈ mask)) as [Hin|Hin].
  - destruct Hkc as [v1 Hkc]. rewrite Hkc in Hm. destruct Hm as [Hke Hpe]. inversion Hpe as [[H1 H2]].
    rewrite Hke, H2. exists t, m. rewrite decide_False by tauto. split; [reflexivity|].
    split; [apply frame_refl|]. split; [exact Hr|]. split; [exact Hwm|].
    intros k. rewrite colval_snoc. specialize (Hk k). destruct (decide (k ∈ mask)); [exact Hk|].
    rewrite decide_False by congruence. exact Hk.
  - destruct (colval ps c) as [v|] eqn:Ecv.
    + rewrite Hkc in Hm. destruct Hm as [Hke Hpe]. inversion Hpe as [[H1 H2]].
      rewrite Hke, H1, H2. rewrite set_Ok by exact Hl. rewrite bind_Ok.
      assert (c ∈ pcols ps) as Hcin by (apply colval_Some_pcols; eauto).
      exists (<[idx:=mkHent (Some c) (Some (add v (mul a b))) (Some true)]> t),
             (<[c:=(Some (add v (mul a b)), Some true)]> m).
      rewrite decide_False by tauto. split; [reflexivity|].
      split; [apply frame_insert; [apply frame_refl|exact Hlt]|]. split; [|split].
      * exact (hrep_overwrite w kk t m c idx e (mkHent (Some c) (Some (add v (mul a b))) (Some true)) Hr He Hke eq_refl).
      * apply twf_overwrite; auto. simpl. symmetry. apply kat_Some. eauto.
      * intros k. rewrite colval_snoc. destruct (decide (c = k)) as [<-|Hne].
        -- rewrite decide_False by exact Hin. rewrite Ecv. apply lookup_insert.
        -- rewrite lookup_insert_ne by exact Hne. apply Hk.
    + rewrite Hkc in Hm. destruct Hm as [Hke Hnot]. rewrite Hke. unfold insertAt. cbn [h_tab h_size h_max h_keys].
      rewrite set_Ok by exact Hl. rewrite bind_Ok.
      assert (c ∉ pcols ps) as Hcin by (apply (colval_None mul add); exact Ecv).
      exists (<[idx:=mkHent (Some c) (Some (mul a b)) (Some true)]> t), (<[c:=(Some (mul a b), Some true)]> m).
      rewrite decide_True by tauto. split; [reflexivity|].
      split; [apply frame_insert; [apply frame_refl|exact Hlt]|]. split; [|split].
      * exact (hrep_fill w kk t m mx _ c idx (mkHent (Some c) (Some (mul a b)) (Some true)) Hr Hsz Hkc Hidx eq_refl).
      * apply (twf_fill w kk t _ c idx); [exact Hwm|exact Hlt| |exact Hnot|reflexivity|tauto].
        unfold kat. rewrite He. exact Hke.
      * intros k. rewrite colval_snoc. destruct (decide (c = k)) as [<-|Hne].
        -- rewrite decide_False by exact Hin. rewrite Ecv. apply lookup_insert.
        -- rewrite lookup_insert_ne by exact Hne. apply Hk.
Qed.

(** Gathering a repetition-free list of non-mask keys. *)
Lemma gatherKeys_spec mask ps keys t m mx ks o :
  twf w sz t (fun k => k ∈ mask) -> tmap t m -> cst mask ps m -> NoDup keys ->
  (forall k, k ∈ keys -> k ∉ mask /\ k ∈ pcols ps) ->
  length (o_done o) + length (mrow ps keys) <= o_cap o ->
  exists t' m', foldM (gatherKey w) keys (mkHash t sz mx ks, o) =
      Ok (mkHash t' sz mx ks, mkOut (o_done o ++ mrow ps keys) (o_cap o)) /\ frame kk t t' /\
    twf w sz t' (fun k => k ∈ mask) /\ tmap t' m' /\
    forall k, m' !! k = if decide (k ∈ keys) then None else m !! k.
Proof.
  intros Hw Hm Hk Hnd Hkeys Ho.
  destruct (foldM_inv (fun done so => exists t' m', so = (mkHash t' sz mx ks, mkOut (o_done o ++ mrow ps done) (o_cap o)) /\
      frame kk t t' /\ twf w sz t' (fun k => k ∈ mask) /\ tmap t' m' /\
      (forall k, m' !! k = if decide (k ∈ done) then None else m !! k)) (gatherKey w) keys (mkHash t sz mx ks, o))
    as (so & Hso & t' & m' & -> & Hfr & Hw' & Hm' & Hk').
  - exists t, m. split; [unfold ComplProofs.mrow; simpl; rewrite app_nil_r; destruct o; reflexivity|]. split; [apply frame_refl|].
    split; [exact Hw|]. split; [exact Hm|]. intros k. rewrite decide_False; [reflexivity|]. intros H; inversion H.
  - intros done c rest so Hl (t1 & m1 & -> & Hfr & Hw1 & Hm1 & Hk1).
    assert (c ∉ done) as Hnin.
    { rewrite Hl in Hnd. apply NoDup_app in Hnd as (_ & Hd & _). intros H. apply (Hd c H). left. }
    destruct (Hkeys c) as [Hcm Hcp]; [rewrite Hl; apply elem_of_app; right; left|].
    pose proof (Hk1 c) as Hc. rewrite decide_False in Hc by exact Hnin.
    pose proof (Hk c) as Hkc. rewrite decide_False in Hkc by exact Hcm.
    apply colval_Some_pcols in Hcp as [v Hv]. rewrite Hv in Hkc.
    destruct (gatherKey_true kk t1 (fun k => k ∈ mask) m1 mx ks (mkOut (o_done o ++ mrow ps done) (o_cap o)) c v)
        as (t2 & Hg & Hfr2 & Hw2 & Hm2); auto.
    + congruence.
    + simpl. rewrite app_length. subst keys.
      replace (done ++ c :: rest) with ((done ++ [c]) ++ rest) in Ho by (rewrite <- app_assoc; reflexivity).
      unfold ComplProofs.mrow in Ho. rewrite omap_app, app_length in Ho. fold (mrow ps (done ++ [c])) in Ho.
      rewrite mrow_snoc, Hv, app_length in Ho. simpl in Ho. unfold ComplProofs.mrow in *. lia.
    + rewrite Hg. eexists. split; [reflexivity|]. exists t2, (delete c m1). cbn [o_done o_cap].
      rewrite mrow_snoc, Hv, <- app_assoc. split; [reflexivity|]. split; [eapply frame_trans; eauto|].
      split; [exact Hw2|]. split; [exact Hm2|]. intros k. destruct (decide (c = k)) as [<-|Hne].
      * rewrite lookup_delete, decide_True; [reflexivity|]. apply elem_of_app; right; left.
      * rewrite lookup_delete_ne by exact Hne. rewrite Hk1.
        rewrite (decide_ext (k ∈ done ++ [c]) (k ∈ done)); [reflexivity|].
        rewrite elem_of_app, elem_of_list_singleton. split; [intros [|]; [auto|congruence]|auto].
  - exists t', m'. auto.
Qed.

(** Erasing the mask keys leaves the table empty. *)
Lemma eraseMask_spec mask t m mx : hrep w kk t m -> length mask < sz ->
  (forall k, is_Some (m !! k) -> k ∈ mask) ->
  exists t', foldM (fun acc c => '(acc', _) <- hErase w acc c ;; Ok acc') mask (mkHash t sz mx []) =
      Ok (mkHash t' sz mx []) /\ frame kk t t' /\ forall i e, t' !! i = Some e -> hk e = None.
Proof.
  intros Hr Hlen Hk.
  destruct (foldM_inv (fun done acc => exists t' m', acc = mkHash t' sz mx [] /\ frame kk t t' /\ hrep w kk t' m' /\
      forall k, is_Some (m' !! k) -> k ∈ mask /\ k ∉ done)
     (fun acc c => '(acc', _) <- hErase w acc c ;; Ok acc') mask (mkHash t sz mx []))
    as (acc & Hacc & t' & m' & -> & Hfr & [Hw' Hm'] & Hk').
  - exists t, m. split; [reflexivity|]. split; [apply frame_refl|]. split; [exact Hr|].
    intros k H. split; [auto|]. intros H'; inversion H'.
  - intros done c rest acc Hmask (t1 & m1 & -> & Hfr & Hr1 & Hk1).
    assert (size m1 < sz) as Hsz.
    { assert (size m1 <= length mask); [|lia]. apply size_le_list. intros k H. apply Hk1 in H. tauto. }
    destruct (hErase_rep w kk t1 m1 mx [] c Hr1 Hsz) as (t2 & He & Hfr2 & Hr2).
    rewrite He, bind_Ok. eexists. split; [reflexivity|]. exists t2, (delete c m1).
    split; [reflexivity|]. split; [eapply frame_trans; eauto|]. split; [exact Hr2|].
    intros k H. destruct (decide (c = k)) as [<-|Hne].
    + rewrite lookup_delete in H. destruct H; discriminate.
    + rewrite lookup_delete_ne in H by exact Hne. apply Hk1 in H as [H1 H2]. split; [exact H1|].
      rewrite elem_of_app, elem_of_list_singleton. intros [|]; [auto|congruence].
  - exists t'. split; [exact Hacc|]. split; [exact Hfr|]. apply tmap_empty_clean.
    replace (∅ : gmap nat payload) with m'; [exact Hm'|]. apply map_eq. intros k. rewrite lookup_empty.
    destruct (m' !! k) eqn:E; [|reflexivity]. exfalso. destruct (Hk' k ltac:(rewrite E; eauto)). tauto.
Qed.

(** *** Complemented mask, symbolic *)
Definition csstep (so : hash V * Z) (p : nat * V * V) : res (hash V * Z) :=
  let '(acc, n) := so in
  '(acc', ins) <- insertOnly w true acc (fst (fst p)) ;;
  Ok (acc', if ins : bool then (n + 1)%Z else n).

Lemma csstep_fold ps t0 mx : hrep w kk t0 ∅ -> length (first_touch (pcols ps)) < sz ->
  exists t m, foldM csstep ps (mkHash t0 sz mx [], 0%Z) =
      Ok (mkHash t sz mx (first_touch (pcols ps)), Z.of_nat (length (first_touch (pcols ps)))) /\
    frame kk t0 t /\ hrep w kk t m /\ forall k, is_Some (m !! k) <-> k ∈ pcols ps.
Proof.
  intros Hr Hlen.
  destruct (foldM_inv (fun done so => exists t m, so = (mkHash t sz mx (first_touch (pcols done)), Z.of_nat (length (first_touch (pcols done)))) /\
      frame kk t0 t /\ hrep w kk t m /\ forall k, is_Some (m !! k) <-> k ∈ pcols done)
      csstep ps (mkHash t0 sz mx [], 0%Z)) as (so & Hso & t & m & -> & Hfr & Hr' & Hk).
  - exists t0, ∅. split; [reflexivity|]. split; [apply frame_refl|]. split; [exact Hr|].
    intros k. rewrite lookup_empty. split; [intros []; discriminate|intros H; inversion H].
  - intros done [[c a] b] rest so Hps (t & m & -> & Hfr & Hr1 & Hk).
    assert (size m < sz) as Hsz.
    { assert (size m <= length (first_touch (pcols ps))); [|lia]. apply size_le_list. intros k H.
      apply elem_of_first_touch. rewrite Hps, fmap_app, elem_of_app. left. apply Hk, H. }
    destruct (insertOnly_rep kk true t m mx (first_touch (pcols done)) c Hr1 Hsz) as (t' & m' & Hi & Hfr' & Hr' & Hoth & Hkey).
    unfold csstep. cbn [fst]. rewrite Hi, bind_Ok. eexists. split; [reflexivity|].
    exists t', m'. split; [|split; [eapply frame_trans; eauto|split; [exact Hr'|]]].
    + rewrite fmap_app. cbn [fmap list_fmap fst]. rewrite first_touch_snoc, andb_true_r.
      destruct (decide (c ∈ pcols done)) as [Hin|Hin].
      * rewrite bool_decide_eq_false_2; [reflexivity|]. apply Hk in Hin as [p Hp]. congruence.
      * rewrite bool_decide_eq_true_2. 
        -- rewrite app_length. simpl. do 2 f_equal. lia.
        -- destruct (m !! c) eqn:E; [|reflexivity]. exfalso. apply Hin, Hk. eauto.
    + intros k. rewrite fmap_app, elem_of_app. cbn [fmap list_fmap fst]. rewrite elem_of_list_singleton.
      destruct (decide (k = c)) as [->|Hne]; [tauto|]. rewrite Hoth by exact Hne. rewrite Hk. tauto.
  - exists t, m. auto.
Qed.

Lemma cmask_fold mask T t m mx ks : hrep w kk t m -> size m < sz -> NoDup mask -> 
  (forall k, is_Some (m !! k) <-> k ∈ T) ->
  foldM (fun so c => let '(acc, n) := so in r <- find w acc c ;;
      Ok (acc, match r with Some _ => (n - 1)%Z | None => n end)) mask
    (mkHash t sz mx ks, Z.of_nat (length (first_touch T))) =
  Ok (mkHash t sz mx ks, Z.of_nat (length (filter (fun x => x ∉ mask) (first_touch T)))).
Proof.
  intros Hr Hsz Hnd Hk.
  destruct (foldM_inv (fun done so => so = (mkHash t sz mx ks, Z.of_nat (length (filter (fun x => x ∉ done) (first_touch T)))))
    (fun so c => let '(acc, n) := so in r <- find w acc c ;;
      Ok (acc, match r with Some _ => (n - 1)%Z | None => n end)) mask
    (mkHash t sz mx ks, Z.of_nat (length (first_touch T)))) as (so & Hso & ->); [| |exact Hso].
  - do 3 f_equal. clear. induction (first_touch T) as [|a l IH]; [reflexivity|].
    rewrite filter_cons, decide_True by (intros H; inversion H). f_equal. exact IH.
  - intros done c rest so Hl ->.
    assert (c ∉ done) as Hnin.
    { rewrite Hl in Hnd. apply NoDup_app in Hnd as (_ & Hd & _). intros H. apply (Hd c H). left. }
    rewrite (filter_notin_snoc (first_touch T) done c (NoDup_first_touch T)).
    pose proof (find_rep w kk t m mx ks c Hr Hsz) as Hf.
    destruct (decide (c ∈ first_touch T /\ c ∉ done)) as [Hd|Hd].
    + destruct (m !! c) as [p|] eqn:E.
      * destruct Hf as (idx & e & -> & _). rewrite bind_Ok. eexists. split; [reflexivity|].
        f_equal. lia.
      * exfalso. destruct Hd as [Hd _]. rewrite elem_of_first_touch in Hd. apply Hk in Hd as [? ?]. congruence.
    + destruct (m !! c) as [p|] eqn:E.
      * exfalso. apply Hd. split; [|exact Hnin]. apply elem_of_first_touch, Hk. eauto.
      * rewrite Hf, bind_Ok. eexists. split; [reflexivity|]. f_equal. lia.
Qed.

Lemma resetStatesList_spec t m mx ks : hrep w kk t m -> NoDup ks -> (forall k, is_Some (m !! k) <-> k ∈ ks) ->
  exists t', resetStatesList w (mkHash t sz mx ks) = Ok (mkHash t' sz mx []) /\ frame kk t t' /\
    forall i e, t' !! i = Some e -> hk e = None.
Proof.
  intros [Hw Hm] Hnd Hk. apply twf_none in Hw. unfold resetStatesList. cbn [h_keys].
  match goal with |- context [foldM ?f ks ?s] => 
  destruct (foldM_inv (fun done acc => exists t' m', acc = mkHash t' sz mx ks /\ frame kk t t' /\
      twf w sz t' (fun _ => False) /\ tmap t' m' /\ forall k, is_Some (m' !! k) <-> k ∈ ks /\ k ∉ done)
      f ks s) as (acc & Hacc & t' & m' & -> & Hfr & Hw' & Hm' & Hk') end.
  - exists t, m. split; [reflexivity|]. split; [apply frame_refl|]. split; [exact Hw|]. split; [exact Hm|].
    intros k. rewrite Hk. split; [|tauto]. intros H. split; [exact H|]. intros H'; inversion H'.
  - intros done c rest acc Hl (t1 & m1 & -> & Hfr & Hw1 & Hm1 & Hk1).
    assert (c ∉ done) as Hnin.
    { rewrite Hl in Hnd. apply NoDup_app in Hnd as (_ & Hd & _). intros H. apply (Hd c H). left. }
    assert (is_Some (m1 !! c)) as [p Hp].
    { apply Hk1. split; [|exact Hnin]. rewrite Hl. apply elem_of_app; right; left. }
    destruct (findIdxForce_rep w kk t1 _ m1 mx ks c _ Hw1 Hm1 Hp) as (idx & e & Hidx & Hlt & He & Hke & _).
    rewrite Hidx, bind_Ok. cbn [h_tab]. rewrite (get_Some _ _ _ He), bind_Ok.
    rewrite set_Ok by (eapply lookup_lt_Some; eauto). rewrite bind_Ok.
    assert (kat t1 idx = Some c) as Hkat by (apply kat_Some; eauto).
    eexists. split; [reflexivity|]. exists (<[idx:=mkHent None (hv1 e) (hv2 e)]> t1), (delete c m1).
    split; [reflexivity|]. split; [apply frame_insert; assumption|]. split; [eapply twf_hole; eauto|].
    split; [eapply tmap_empty; eauto; [eapply lookup_lt_Some; eauto|apply (tw_inj _ _ _ _ Hw1)]|].
    intros k. rewrite elem_of_app, elem_of_list_singleton. destruct (decide (c = k)) as [<-|Hne].
    + rewrite lookup_delete. split; [intros []; discriminate|tauto].
    + rewrite lookup_delete_ne by exact Hne. rewrite Hk1. split; intros [H1 H2]; (split; [exact H1|]); intuition congruence.
  - rewrite Hacc, bind_Ok. exists t'. split; [reflexivity|]. split; [exact Hfr|].
    apply tmap_empty_clean. replace (∅ : gmap nat payload) with m'; [exact Hm'|]. apply map_eq. intros k. rewrite lookup_empty.
    destruct (m' !! k) eqn:E; [|reflexivity]. exfalso.
    assert (k ∈ ks /\ k ∉ ks) by (apply Hk'; eauto). tauto.
Qed.
End Compl.

Theorem hashNumericRowC_correct sorted (A B M : csr V) row flops (acc : hash V) o capreq :
  compatible A B M -> row < rows A ->
  hash_ok acc -> fits w capreq -> adjustSize w capreq = Ok (length (h_tab acc)) ->
  length (compl_cols A B M row) <= flops ->
  length (row_cols M row) + flops <= capreq ->
  length (o_done o) + length (compl_cols A B M row) <= o_cap o ->
  exists acc', hashNumericRowC w mul add sorted A B M row flops acc o =
      Ok (acc', mkOut (o_done o ++ crow mul add sorted A B M row) (o_cap o)) /\
    hash_ok acc' /\ length (h_tab acc') = length (h_tab acc).
Proof.
  intros [HA HB HM Hi Hr Hc] Hrow Hok Hfit Hcap Hfl Hmask Ho.
  assert (row < rows M) as HrM by lia.
  destruct (row_bounds_wf M row HM HrM) as (mb & me & Hmb & Hme & Hle & Hnz & Hrb).
  assert (length (row_cols M row) = me - mb) as Hlen.
  { rewrite row_cols_length. eapply row_entries_length; eauto. }
  assert (ckeys (row_cols M row) (row_prods A B row) = compl_cols A B M row) as Hck.
  { unfold ckeys, compl_cols. rewrite row_prods_cols. reflexivity. }
  unfold hashNumericRowC. rewrite Hrb, bind_Ok.
  destruct (resize_spec acc (me - mb + flops) capreq Hfit ltac:(lia) Hcap) as (kk & Hres & Hn & Hsz).
  rewrite Hres, bind_Ok. pose proof (ho_clean _ Hok) as [Hkeys _]. rewrite Hkeys.
  rewrite mask_loop_foldM by assumption.
  set (mx := Nat.max (h_max acc) (2 ^ kk)).
  destruct (insertMask_spec kk (h_tab acc) mx [] (row_cols M row)) as (t1 & m1 & -> & Hf1 & Hr1 & Hk1).
  { apply clean_hrep; [apply ho_clean; exact Hok|exact Hsz]. }
  { lia. }
  rewrite bind_Ok.
  rewrite (prod_loop_foldM A B row _ cstep) by
    (auto; intros; apply hashBodyC_cstep; assumption).
  assert (twf w (2 ^ kk) t1 (fun k => k ∈ row_cols M row)) as Hwm1.
  { destruct Hr1 as [Hw1 Hm1]. eapply twf_weaken; [exact Hw1|intros; exact I|].
    intros i k Hik. specialize (Hk1 k). destruct (decide (k ∈ row_cols M row)); [assumption|].
    apply (tmap_None t1 m1 k Hm1) with (i := i) in Hk1. congruence. }
  destruct (foldM_inv (fun ps acc => exists t m, acc = mkHash t (2 ^ kk) mx (ckeys (row_cols M row) ps) /\ frame kk t1 t /\
      hrep w kk t m /\ twf w (2 ^ kk) t (fun k => k ∈ row_cols M row) /\ cst (row_cols M row) ps m)
      cstep (row_prods A B row) (mkHash t1 (2 ^ kk) mx []))
    as (acc2 & -> & t2 & m2 & -> & Hf2 & Hr2 & Hw2 & Hk2).
  { exists t1, m1. split; [reflexivity|]. split; [apply frame_refl|]. split; [exact Hr1|]. split; [exact Hwm1|].
    intros k. rewrite colval_nil. apply Hk1. }
  { intros ps [[c a] b] rest s Hps (t & m & -> & Hf & Hrp & Hwm & Hk).
    assert (size m < 2 ^ kk) as Hsm.
    { eapply (cst_size kk (row_cols M row) ps (row_prods A B row)); [exact Hk| |rewrite Hck; lia].
      intros k Hin. rewrite Hps, fmap_app, elem_of_app. auto. }
    destruct (cstep_spec kk (row_cols M row) ps t m mx c a b Hrp Hwm Hk Hsm) as (t' & m' & Hs & Hf' & Hr' & Hw' & Hk').
    eexists. split; [exact Hs|]. exists t', m'. split; [reflexivity|]. split; [eapply frame_trans; eauto|]. auto. }
  rewrite bind_Ok. unfold gatherList. cbn [h_keys]. rewrite Hck.
  set (keys := if sorted then merge_sort le (compl_cols A B M row) else compl_cols A B M row).
  assert (forall k, k ∈ keys <-> k ∈ compl_cols A B M row) as Hkk.
  { intros k. unfold keys. destruct sorted; [|reflexivity]. rewrite merge_sort_Permutation. reflexivity. }
  destruct (gatherKeys_spec kk (row_cols M row) (row_prods A B row) keys t2 m2 mx (compl_cols A B M row) o Hw2 (proj2 Hr2) Hk2)
    as (t3 & m3 & Hg & Hf3 & Hw3 & Hm3 & Hk3).
  { unfold keys. destruct sorted; [rewrite merge_sort_Permutation|]; apply compl_cols_NoDup. }
  { intros k Hin. apply Hkk, compl_cols_elem in Hin. exact Hin. }
  { change (mrow (row_prods A B row) keys) with (crow mul add sorted A B M row).
    rewrite crow_length. exact Ho. }
  rewrite Hg, !bind_Ok. cbn [h_tab h_size h_max]. rewrite mask_loop_foldM by assumption.
  assert (forall k, is_Some (m3 !! k) -> k ∈ row_cols M row) as Hdom.
  { intros k Hs. rewrite Hk3 in Hs. destruct (decide (k ∈ keys)) as [|Hnk]; [destruct Hs; discriminate|].
    specialize (Hk2 k). destruct (decide (k ∈ row_cols M row)) as [|Hnm]; [assumption|].
    exfalso. apply Hnk, Hkk, compl_cols_elem. split; [exact Hnm|]. apply colval_Some_pcols.
    rewrite Hk2 in Hs. destruct (colval (row_prods A B row) k); [eauto|destruct Hs; discriminate]. }
  assert (hrep w kk t3 m3) as Hr3.
  { split; [|exact Hm3]. eapply twf_all; [exact Hw3|]. intros i k Hik. apply Hdom.
    apply (tmap_kat t3 m3 k Hm3). eauto. }
  destruct (eraseMask_spec kk (row_cols M row) t3 m3 mx Hr3 ltac:(lia) Hdom) as (t4 & -> & Hf4 & Hcl).
  rewrite bind_Ok. eexists. split; [reflexivity|]. split.
  - apply row_done; auto. eapply frame_trans; [exact Hf1|]. eapply frame_trans; [exact Hf2|]. eapply frame_trans; eauto.
  - cbn [h_tab]. destruct Hf1, Hf2, Hf3, Hf4. congruence.
Qed.

Theorem hashSymbolicRowC_correct (A B M : csr V) row flops (acc : hash V) capreq :
  compatible A B M -> row < rows A -> NoDup (row_cols M row) ->
  hash_ok acc -> fits w capreq -> adjustSize w capreq = Ok (length (h_tab acc)) ->
  length (first_touch (touched_cols A B row)) <= flops ->
  length (row_cols M row) + flops <= capreq ->
  exists acc', hashSymbolicRowC w A B M row flops acc = Ok (acc', Z.of_nat (length (compl_cols A B M row))) /\
    hash_ok acc' /\ length (h_tab acc') = length (h_tab acc).
Proof.
  intros [HA HB HM Hi Hr Hc] Hrow Hnd Hok Hfit Hcap Hfl Hmask.
  assert (row < rows M) as HrM by lia.
  destruct (row_bounds_wf M row HM HrM) as (mb & me & Hmb & Hme & Hle & Hnz & Hrb).
  assert (length (row_cols M row) = me - mb) as Hlen.
  { rewrite row_cols_length. eapply row_entries_length; eauto. }
  unfold hashSymbolicRowC. rewrite Hrb, bind_Ok.
  destruct (resize_spec acc (me - mb + flops) capreq Hfit ltac:(lia) Hcap) as (kk & Hres & Hn & Hsz).
  rewrite Hres, bind_Ok. pose proof (ho_clean _ Hok) as [Hkeys _]. rewrite Hkeys.
  set (mx := Nat.max (h_max acc) (2 ^ kk)).
  rewrite (prod_loop_foldM A B row _ csstep).
  2-5: assumption.
  2:{ intros j k [ac n] c a b _ Hcb _ _. rewrite (get_Some _ _ _ Hcb). reflexivity. }
  destruct (csstep_fold kk (row_prods A B row) (h_tab acc) mx) as (t1 & m1 & -> & Hf1 & Hr1 & Hk1).
  { apply clean_hrep; [apply ho_clean; exact Hok|exact Hsz]. }
  { rewrite row_prods_cols. lia. }
  rewrite bind_Ok. rewrite mask_loop_foldM by assumption.
  rewrite row_prods_cols in *.
  rewrite (cmask_fold kk (row_cols M row) (touched_cols A B row) t1 m1 mx _ Hr1).
  2:{ assert (size m1 <= length (first_touch (touched_cols A B row))); [|lia]. apply size_le_list.
      intros k H. apply elem_of_first_touch, Hk1, H. }
  2: exact Hnd.
  2: exact Hk1.
  rewrite bind_Ok.
  destruct (resetStatesList_spec kk t1 m1 mx (first_touch (touched_cols A B row)) Hr1 (NoDup_first_touch _)) as (t2 & -> & Hf2 & Hcl).
  { intros k. rewrite Hk1. symmetry. apply elem_of_first_touch. }
  rewrite bind_Ok. eexists. split; [reflexivity|]. split.
  - apply row_done; auto. eapply frame_trans; eauto.
  - cbn [h_tab]. destruct Hf1, Hf2. congruence.
Qed.
End HashRows.
