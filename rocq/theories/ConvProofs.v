(** CSC to CSR conversion: the counting sort of the entries by row. *)
From stdpp Require Import numbers.
From Verif Require Import MatModel BaseProofs ConcProofs ParProofs ScanProofs WorkProofs Assemble MatProofs MatSpec.
From Verif Require Import Base Spec.

Section Perm.
Context {A : Type} (key : A -> nat).
Lemma filter_S_perm (l : list A) n :
  filter (fun x => key x < S n) l ≡ₚ filter (fun x => key x < n) l ++ filter (fun x => key x = n) l.
Proof.
  induction l as [|x l IH]; [reflexivity|]. rewrite !filter_cons.
  destruct (decide (key x < S n)), (decide (key x < n)), (decide (key x = n)); try lia.
  - rewrite IH. reflexivity.
  - rewrite IH. apply Permutation_middle.
  - exact IH.
Qed.
Lemma buckets_perm_lt (l : list A) n :
  mjoin ((fun i => filter (fun x => key x = i) l) <$> seq 0 n) ≡ₚ filter (fun x => key x < n) l.
Proof.
  induction n as [|n IH].
  - simpl. induction l as [|x l IHl]; [reflexivity|]. rewrite filter_cons, decide_False by lia. exact IHl.
  - rewrite seq_S, fmap_app, mjoin_app, filter_S_perm, IH. simpl. rewrite app_nil_r. reflexivity.
Qed.
Lemma buckets_perm (l : list A) n : Forall (fun x => key x < n) l ->
  mjoin ((fun i => filter (fun x => key x = i) l) <$> seq 0 n) ≡ₚ l.
Proof. intros H. rewrite buckets_perm_lt. induction H as [|x l Hx _ IH]; [reflexivity|]. rewrite filter_cons, decide_True by exact Hx. rewrite IH. reflexivity. Qed.
End Perm.

Lemma mjoin_fmap {A B} (f : A -> B) (ll : list (list A)) : f <$> mjoin ll = mjoin (fmap f <$> ll).
Proof. induction ll as [|l ll IH]; [reflexivity|]. rewrite mjoin_cons, fmap_app, fmap_cons, mjoin_cons, IH. reflexivity. Qed.
Lemma filter_fmap {A B} (f : A -> B) (P : B -> Prop) `{forall x, Decision (P x)} (l : list A) :
  filter P (f <$> l) = f <$> filter (fun x => P (f x)) l.
Proof.
  induction l as [|x l IH]; [reflexivity|]. rewrite fmap_cons, !filter_cons.
  destruct (decide (P (f x))); rewrite ?fmap_cons, IH; reflexivity.
Qed.
Lemma filter_mjoin {A} (P : A -> Prop) `{forall x, Decision (P x)} (ll : list (list A)) :
  filter P (mjoin ll) = mjoin (filter P <$> ll).
Proof. induction ll as [|l ll IH]; [reflexivity|]. rewrite mjoin_cons, filter_app, fmap_cons, mjoin_cons, IH. reflexivity. Qed.
Lemma mjoin_fmap_ext {A B} (f g : A -> list B) l : (forall x, x ∈ l -> f x = g x) -> mjoin (f <$> l) = mjoin (g <$> l).
Proof.
  intros H. f_equal. apply list_fmap_ext. intros i x Hx. apply H. eapply elem_of_list_lookup_2, Hx.
Qed.

Section Conv.
Context {V : Type} (dflt : V).

(** Entries in traversal order: key = row, payload = (column, value). *)
Definition csc_items (B : csc V) : list (nat * (nat * V)) :=
  mjoin ((fun j => (fun e => (fst e, (j, snd e))) <$> col_entries B j) <$> seq 0 (c_cols B)).

Lemma bucket_csc (B : csc V) i : bucket (csc_items B) i = csc_row B i.
Proof.
  unfold bucket, csc_items, csc_row. rewrite filter_mjoin, mjoin_fmap, <- !list_fmap_compose. apply mjoin_fmap_ext. intros j _.
  simpl. rewrite filter_fmap, <- list_fmap_compose. simpl. reflexivity.
Qed.

Lemma csc_keys (B : csc V) : wf_csc B -> fst <$> csc_items B = rowids B.
Proof.
  intros Hw. unfold csc_items. rewrite mjoin_fmap, <- list_fmap_compose.
  pose proof (wf_rowsOf (csc_tr B) (rows (csc_tr B)) Hw ltac:(lia)) as Hr.
  assert (E : fst <$> rowsOf (row_entries (csc_tr B)) 0 (c_cols B) = rowids B).
  { change (c_cols B) with (rows (csc_tr B)). rewrite Hr. pose proof (wf_pre (csc_tr B) (rows (csc_tr B)) Hw ltac:(lia)) as Hn. rewrite (wf_last _ Hw) in Hn. injection Hn as Hn.
    rewrite take_ge; [apply fst_zip|rewrite zip_length by exact Hw; change (rows (csc_tr B)) with (c_cols B); simpl in Hn |- *; lia].
    pose proof (wf_colids _ Hw). pose proof (wf_values _ Hw). simpl in *. lia. }
  rewrite <- E. unfold rowsOf. rewrite Nat.sub_0_r, mjoin_fmap, <- list_fmap_compose. apply mjoin_fmap_ext. intros j _. simpl.
  rewrite <- list_fmap_compose. reflexivity.
Qed.
Lemma csc_keys_lt (B : csc V) : wf_csc B -> Forall (fun x => fst x < c_rows B) (csc_items B).
Proof.
  intros Hw. change (fun x : nat * (nat * V) => fst x < c_rows B) with ((fun k => k < c_rows B) ∘ (fst (A := nat) (B := nat * V))). rewrite <- Forall_fmap. rewrite (csc_keys B Hw).
  apply Forall_lookup. intros p c Hp. apply (wf_range _ Hw p c Hp).
Qed.
Lemma csc_items_length (B : csc V) : wf_csc B -> length (csc_items B) = c_nnz B.
Proof. intros Hw. rewrite <- (fmap_length fst), (csc_keys B Hw). apply (wf_colids _ Hw). Qed.

Lemma nat_bind {A B C} (e : res A) (f : A -> res B) (g : B -> res C) : bind (bind e f) g = bind e (fun x => bind (f x) g).
Proof. destruct e; reflexivity. Qed.

Lemma csrOfCsc_ok (B : csc V) : wf_csc B ->
  csrOfCsc dflt B = Ok (assemble (csc_row B) (c_rows B) (c_cols B)).
Proof.
  intros Hw. unfold csrOfCsc.
  assert (Hlen : length (rowids B) = c_nnz B) by apply (wf_colids _ Hw).
  rewrite (for_foldM (rowids B) _ (fun w r => bump w r)) by (first [lia|intros k r s _ Hr; rewrite (get_Some _ _ _ Hr); reflexivity]).
  rewrite Nat.sub_0_r, drop_0, take_ge by lia. change (fun w r => bump w r) with bump. rewrite count_fold.
  2:{ apply Forall_lookup. intros p c Hp. apply (wf_range _ Hw p c Hp). }
  rewrite bind_Ok.
  assert (Htot : pre (bucket (csc_items B)) (c_rows B) = c_nnz B).
  { rewrite pre_total by (apply csc_keys_lt, Hw). apply csc_items_length, Hw. }
  destruct (Nat.ltb_spec 0 (c_nnz B)) as [Hnz|Hnz].
  - rewrite pointers_ok, bind_Ok. replace (cnt (rowids B)) with (cnt (fst <$> csc_items B)) by (rewrite (csc_keys B Hw); reflexivity).
    rewrite (list_fmap_ext (psum (cnt (fst <$> csc_items B))) (pre (bucket (csc_items B))) (seq 0 (c_rows B))) by (intros; apply psum_pre).
    rewrite (list_fmap_ext (psum (cnt (fst <$> csc_items B))) (pre (bucket (csc_items B))) (seq 0 (c_rows B + 1))) by (intros; apply psum_pre).
    destruct (place1_fold (csc_items B) (c_rows B) (0, dflt) (csc_keys_lt B Hw)) as (work' & Hf).
    rewrite (csc_items_length B Hw) in Hf.
    assert (Hz : replicate (c_nnz B) (0, dflt) = zip (replicate (c_nnz B) 0) (replicate (c_nnz B) dflt)).
    { generalize (c_nnz B). induction n as [|n IHn]; [reflexivity|]. simpl. rewrite IHn. reflexivity. }
    rewrite Hz in Hf. apply place2_zip in Hf; [|rewrite !replicate_length; reflexivity].
    match goal with |- bind ?X _ = _ => assert (E : X = Ok (work', fst <$> rowsOf (bucket (csc_items B)) 0 (c_rows B), snd <$> rowsOf (bucket (csc_items B)) 0 (c_rows B))) end.
    + rewrite <- Hf.
      assert (G : forall s0, foldM (fun s x => place2 s (fst x) (fst (snd x)) (snd (snd x))) (csc_items B) s0 =
        foldM (fun s j => foldM (fun s x => place2 s (fst x) (fst (snd x)) (snd (snd x))) ((fun e => (fst e, (j, snd e))) <$> col_entries B j) s) (seq 0 (c_cols B)) s0)
        by (intros s0; unfold csc_items; rewrite foldM_mjoin, foldM_fmap; reflexivity).
      rewrite G.
      rewrite (for_foldM (seq 0 (c_cols B)) _ (fun s j => foldM (fun s x => place2 s (fst x) (fst (snd x)) (snd (snd x)))
        ((fun e => (fst e, (j, snd e))) <$> col_entries B j) s)).
      * rewrite Nat.sub_0_r, drop_0, take_ge by (rewrite seq_length; lia). reflexivity.
      * rewrite seq_length. lia.
      * lia.
      * intros j j' s Hj Hj'. apply lookup_seq in Hj' as [-> _]. simpl.
        destruct (row_bounds_wf (csc_tr B) j Hw) as (b & e & Hb & He & Hbe & Hen & _); [simpl; lia|].
        simpl in Hb, He, Hen. rewrite (get_Some _ _ _ Hb), bind_Ok, (get_Some _ _ _ He), bind_Ok.
        rewrite foldM_fmap. unfold col_entries. rewrite (row_entries_eq (csc_tr B) j b e Hb He).
        apply for_foldM; [rewrite zip_length by exact Hw; simpl; lia|lia|].
        intros k [r v] s' _ Hk. apply zip_lookup in Hk as [Hr Hv]; [|exact Hw]. simpl in Hr, Hv.
        rewrite (get_Some _ _ _ Hr), bind_Ok, (get_Some _ _ _ Hv), bind_Ok. reflexivity.
    + rewrite E, bind_Ok. unfold assemble. rewrite <- Htot.
      rewrite (pre_ext (csc_row B) (bucket (csc_items B))) by (intros; symmetry; apply bucket_csc).
      rewrite (rowsOf_ext (csc_row B) (bucket (csc_items B))) by (intros; symmetry; apply bucket_csc).
      f_equal. f_equal. apply list_fmap_ext. intros. apply pre_ext. intros. apply bucket_csc.
  - assert (c_nnz B = 0) as H0 by lia. rewrite H0 in *. simpl.
    assert (Hp : forall i, i <= c_rows B -> pre (csc_row B) i = 0).
    { intros i Hi. rewrite (pre_ext _ (bucket (csc_items B))) by (intros; symmetry; apply bucket_csc).
      pose proof (pre_le (bucket (csc_items B)) i (c_rows B) Hi). lia. }
    unfold assemble. rewrite (Hp (c_rows B)) by lia. f_equal.
    assert (Hr : rowsOf (csc_row B) 0 (c_rows B) = []).
    { apply nil_length_inv. rewrite rowsOf_length, pre_0, Hp by lia. reflexivity. }
    rewrite Hr. f_equal. rewrite replicate_seq. apply list_fmap_ext. intros i x Hx. apply lookup_seq in Hx as [-> Hx]. symmetry. apply Hp. lia.
Qed.

Lemma csc_row_range (B : csc V) i c v : (c, v) ∈ csc_row B i -> c < c_cols B.
Proof.
  unfold csc_row. rewrite elem_of_list_join. intros (l & Hl & Hin). apply elem_of_list_fmap in Hin as (j & -> & Hj).
  apply elem_of_seq in Hj. apply elem_of_list_fmap in Hl as (e & Heq & _). injection Heq as -> ->. lia.
Qed.

Lemma csc_row_elem (B : csc V) i c v : (c, v) ∈ csc_row B i <-> c < c_cols B /\ (i, v) ∈ col_entries B c.
Proof.
  unfold csc_row. rewrite elem_of_list_join. split.
  - intros (l & Hl & Hin). apply elem_of_list_fmap in Hin as (j & -> & Hj). apply elem_of_seq in Hj.
    apply elem_of_list_fmap in Hl as ([r w] & Heq & Hin). injection Heq as -> ->. apply elem_of_list_filter in Hin as [Hr Hin].
    simpl in Hr. subst r. split; [lia|exact Hin].
  - intros [Hc Hin]. eexists. split; [|apply elem_of_list_fmap; exists c; split; [reflexivity|apply elem_of_seq; lia]].
    apply elem_of_list_fmap. exists (i, v). split; [reflexivity|]. apply elem_of_list_filter. auto.
Qed.

Lemma csc_row_sorted (B : csc V) i : StronglySorted le (fst <$> csc_row B i).
Proof.
  unfold csc_row. generalize (c_cols B) as n. intros n. generalize 0 as lo.
  induction n as [|n IH]; intros lo; [constructor|]. cbn [seq]. rewrite fmap_cons, mjoin_cons, fmap_app.
  assert (Hge : forall x, x ∈ (fst <$> mjoin ((fun j => (fun e => (j, snd e)) <$> filter (fun e => fst e = i) (col_entries B j)) <$> seq (S lo) n)) -> lo <= x).
  { intros x Hx. apply elem_of_list_fmap in Hx as ([c v] & -> & Hx). apply elem_of_list_join in Hx as (l & Hl & Hin).
    apply elem_of_list_fmap in Hin as (j & -> & Hj). apply elem_of_seq in Hj. apply elem_of_list_fmap in Hl as (e & Heq & _). injection Heq as -> ->. simpl. lia. }
  rewrite <- list_fmap_compose. induction (filter (fun e => fst e = i) (col_entries B lo)) as [|e es IHe]; [apply IH|].
  rewrite fmap_cons. simpl. constructor; [exact IHe|]. apply Forall_app. split.
  - apply Forall_forall. intros x Hx. apply elem_of_list_fmap in Hx as (e' & -> & _). simpl. lia.
  - apply Forall_forall. exact Hge.
Qed.

Lemma csc_row_strict (B : csc V) i : distinct_cols B -> StronglySorted lt (fst <$> csc_row B i).
Proof.
  intros Hd. unfold csc_row. assert (Hall : forall j, 0 <= j < 0 + c_cols B -> NoDup (fst <$> col_entries B j)) by (intros; apply Hd; lia).
  clear Hd. revert Hall. generalize (c_cols B) as n. intros n. generalize 0 as lo. revert n.
  induction n as [|n IH]; intros lo Hall; [constructor|]. cbn [seq]. rewrite fmap_cons, mjoin_cons, fmap_app.
  assert (Hge : forall x, x ∈ (fst <$> mjoin ((fun j => (fun e => (j, snd e)) <$> filter (fun e => fst e = i) (col_entries B j)) <$> seq (S lo) n)) -> lo < x).
  { intros x Hx. apply elem_of_list_fmap in Hx as ([c v] & -> & Hx). apply elem_of_list_join in Hx as (l & Hl & Hin).
    apply elem_of_list_fmap in Hin as (j & -> & Hj). apply elem_of_seq in Hj. apply elem_of_list_fmap in Hl as (e & Heq & _). injection Heq as -> ->. simpl. lia. }
  specialize (IH (S lo) ltac:(intros; apply Hall; lia)). specialize (Hall lo ltac:(lia)).
  assert (Hf : length (filter (fun e => fst e = i) (col_entries B lo)) <= 1).
  { clear -Hall. induction (col_entries B lo) as [|e l IHl]; [simpl; lia|]. rewrite fmap_cons in Hall. apply NoDup_cons in Hall as [Hn Hall].
    rewrite filter_cons. destruct (decide (fst e = i)) as [<-|_]; [|apply IHl, Hall].
    simpl. assert (filter (fun e' => fst e' = fst e) l = []) as ->; [|simpl; lia].
    clear -Hn. induction l as [|e' l IHl]; [reflexivity|]. rewrite fmap_cons, not_elem_of_cons in Hn. destruct Hn as [Hne Hn].
    rewrite filter_cons, decide_False by congruence. apply IHl, Hn. }
  destruct (filter (fun e => fst e = i) (col_entries B lo)) as [|e [|e' es]]; [exact IH| |simpl in Hf; lia].
  simpl. constructor; [exact IH|]. apply Forall_forall. exact Hge.
Qed.

Lemma assemble_triples (f : nat -> list (nat * V)) n nc : triples (assemble f n nc) =
  mjoin ((fun i => (fun e => (i, fst e, snd e)) <$> f i) <$> seq 0 n).
Proof.
  unfold triples. simpl. apply mjoin_fmap_ext. intros i Hi. apply elem_of_seq in Hi. rewrite assemble_row by lia. reflexivity.
Qed.

Lemma csc_triples_perm (B : csc V) : wf_csc B ->
  triples (assemble (csc_row B) (c_rows B) (c_cols B)) ≡ₚ triples_csc B.
Proof.
  intros Hw. rewrite assemble_triples.
  assert (E : triples_csc B = (fun x => (fst x, fst (snd x), snd (snd x))) <$> csc_items B).
  { unfold triples_csc, csc_items. rewrite mjoin_fmap, <- list_fmap_compose. apply mjoin_fmap_ext. intros j _. simpl. rewrite <- list_fmap_compose. reflexivity. }
  rewrite E. rewrite <- (buckets_perm fst (csc_items B) (c_rows B)) at 1 by (apply csc_keys_lt, Hw).
  rewrite mjoin_fmap, <- list_fmap_compose. apply Permutation_refl'. apply mjoin_fmap_ext. intros i _.
  rewrite <- bucket_csc. unfold bucket. rewrite <- list_fmap_compose. simpl.
  apply list_fmap_ext. intros k [r [c v]] Hk. apply elem_of_list_lookup_2, elem_of_list_filter in Hk as [Hr _]. simpl in *. subst. reflexivity.
Qed.

(** With the flag set the arrays are copied. *)
Lemma copy_two (vs : list V) (rs : list nat) n : length vs = n -> length rs = n ->
  for_ 0 n (fun k '(vals, ids) => v <- get vs k ;; vals' <- set_ vals k v ;; r <- get rs k ;; ids' <- set_ ids k r ;; Ok (vals', ids'))
    (replicate n dflt, replicate n 0) = Ok (vs, rs).
Proof.
  intros Hv Hr.
  destruct (for_inv (fun k (s : list V * list nat) => length (fst s) = n /\ length (snd s) = n /\
      (forall i, i < k -> fst s !! i = vs !! i /\ snd s !! i = rs !! i))
    (fun k '(vals, ids) => v <- get vs k ;; vals' <- set_ vals k v ;; r <- get rs k ;; ids' <- set_ ids k r ;; Ok (vals', ids'))
    0 n (replicate n dflt, replicate n 0)) as ([vals ids] & -> & H1 & H2 & H3).
  - lia.
  - simpl. rewrite !replicate_length. split; [reflexivity|]. split; [reflexivity|]. intros; lia.
  - intros k [vals ids] Hk (H1 & H2 & H3). simpl in H1, H2, H3.
    destruct (lookup_lt_is_Some_2 vs k) as [v Hvk]; [lia|]. destruct (lookup_lt_is_Some_2 rs k) as [r Hrk]; [lia|].
    rewrite (get_Some _ _ _ Hvk), bind_Ok, set_Ok by lia. rewrite bind_Ok, (get_Some _ _ _ Hrk), bind_Ok, set_Ok by lia.
    rewrite bind_Ok. eexists. split; [reflexivity|]. simpl. rewrite !insert_length. split; [lia|]. split; [lia|].
    intros i Hi. destruct (decide (i = k)) as [->|Hne].
    + rewrite !list_lookup_insert by lia. auto.
    + rewrite !list_lookup_insert_ne by congruence. apply H3. lia.
  - simpl in H1, H2, H3. f_equal. f_equal.
    + apply list_eq_same_length with n; [lia..|]. intros i x y Hi. destruct (H3 i Hi) as [-> _]. intros; congruence.
    + apply list_eq_same_length with n; [lia..|]. intros i x y Hi. destruct (H3 i Hi) as [_ ->]. intros; congruence.
Qed.

Lemma csrOfCscT_ok (B : csc V) : wf_csc B -> csrOfCscT dflt B true = Ok (csc_tr B).
Proof.
  intros Hw. unfold csrOfCscT. simpl.
  destruct (copyRange_ok (colptr B) (c_cols B + 1) (replicate (c_cols B + 1) 0) 0) as (d & -> & Hl & H1 & _).
  - pose proof (wf_len _ Hw). simpl in *. lia.
  - rewrite replicate_length. lia.
  - rewrite bind_Ok. rewrite copy_two; [|apply (wf_values _ Hw)|apply (wf_colids _ Hw)]. rewrite bind_Ok.
    unfold csc_tr. f_equal. f_equal. rewrite replicate_length in Hl. pose proof (wf_len _ Hw) as Hc. simpl in Hc.
    apply list_eq_same_length with (c_cols B + 1); [lia..|]. intros i x y Hi Hx Hy. specialize (H1 i Hi). simpl in H1. congruence.
Qed.
End Conv.
