(** Lemmas about the splitting of a matrix into pieces of rows. *)
From Verif Require Import BaseProofs ConcProofs Assemble MatSpec MatProofs TriAllProofs SplitModel.
From Verif Require Import Base Spec.

Lemma mjoin_nil' {A} : mjoin [] = @nil A. Proof. reflexivity. Qed.

Section Loop.
Context {V S : Type} (X : csr V) (Hw : wf X).
(** A loop over the rows of a matrix is a loop over its entries. *)
Lemma loop_triples (body : nat -> nat -> S -> res S) (g : S -> nat * nat * V -> res S) s0 :
  (forall i j s c v, i < rows X -> colids X !! j = Some c -> values X !! j = Some v -> body i j s = g s (i, c, v)) ->
  for_ 0 (rows X) (fun i s => b <- get (rowptr X) i ;; e <- get (rowptr X) (i + 1) ;; for_ b e (body i) s) s0 = foldM g (triples X) s0.
Proof.
  intros Hb. unfold triples. rewrite foldM_mjoin.
  rewrite (for_foldM (seq 0 (rows X)) _ (fun s i => foldM g ((fun e => (i, fst e, snd e)) <$> row_entries X i) s)); [|rewrite seq_length; lia|lia|].
  - rewrite drop_0, Nat.sub_0_r, firstn_all2 by (rewrite seq_length; lia). rewrite foldM_fmap. reflexivity.
  - intros k a s Hk Ha. apply lookup_seq in Ha as [-> Ha]. cbn [Nat.add] in *.
    destruct (lookup_lt_is_Some_2 (rowptr X) k) as [b Eb]; [rewrite (wf_len X Hw); lia|].
    destruct (lookup_lt_is_Some_2 (rowptr X) (k + 1)) as [e Ee]; [rewrite (wf_len X Hw); lia|].
    rewrite (get_Some _ _ _ Eb), (get_Some _ _ _ Ee). cbn [bind].
    rewrite foldM_fmap, (row_entries_eq X k b e Eb Ee).
    assert (Hbe : b <= e) by (eapply (wf_mono X Hw); eauto).
    assert (He : e <= nnz X).
    { rewrite <- (zip_length X Hw). pose proof (row_entries_length X k b e Hw ltac:(lia) Eb Ee) as HL. rewrite (row_entries_eq X k b e Eb Ee) in HL.
      rewrite take_length, drop_length in HL. destruct (decide (e = b)); [|lia]. subst e.
      pose proof (wf_pre X (k + 1) Hw ltac:(lia)) as E1. pose proof (wf_pre X (rows X) Hw ltac:(lia)) as E2. rewrite (wf_last X Hw) in E2.
      rewrite Ee in E1. injection E1 as ->. injection E2 as E2. rewrite (zip_length X Hw), E2. apply pre_le. lia. }
    apply for_foldM; [rewrite (zip_length X Hw); exact He|exact Hbe|].
    intros j [c v] s' Hj Hz. apply lookup_zip_with_Some in Hz as (c' & v' & E & Hc & Hv). injection E as -> ->. cbn [fst snd].
    apply Hb; [lia|assumption..].
Qed.
End Loop.

(** The pieces after all pushes. *)
Lemma push_all {A B} (owner : A -> nat) (f : A -> B) n (l : list A) : (forall x, x ∈ l -> owner x < n) ->
  foldM (fun ps x => pushTo ps (owner x) (f x)) l (replicate n []) = Ok ((fun o => f <$> filter (fun x => owner x = o) l) <$> seq 0 n).
Proof.
  intros Ho. set (P := fun (l : list A) o => f <$> filter (fun x => owner x = o) l).
  destruct (foldM_inv (fun done ps => ps = P done <$> seq 0 n) (fun ps x => pushTo ps (owner x) (f x)) l (replicate n [])) as (ps & E & ->); [..|exact E].
  - unfold P. rewrite replicate_seq. reflexivity.
  - intros done a rest ps El ->. assert (Ha : owner a < n) by (apply Ho; rewrite El; apply elem_of_app; right; left).
    eexists. split; [|reflexivity]. unfold pushTo.
    rewrite (get_Some _ _ (P done (owner a))) by (apply seq_fmap_lookup; lia). cbn [bind].
    rewrite set_Ok by (rewrite fmap_length, seq_length; lia). f_equal.
    apply list_eq. intros i. destruct (decide (i < n)) as [Hi|Hi].
    2: { rewrite !lookup_ge_None_2; [reflexivity|rewrite fmap_length, seq_length; lia|rewrite insert_length, fmap_length, seq_length; lia]. }
    rewrite seq_fmap_lookup by lia. destruct (decide (i = owner a)) as [E|E].
    + subst i. rewrite list_lookup_insert by (rewrite fmap_length, seq_length; lia). f_equal. unfold P. rewrite filter_app, fmap_app, filter_cons, decide_True by reflexivity. reflexivity.
    + rewrite list_lookup_insert_ne by congruence. rewrite seq_fmap_lookup by lia. f_equal. unfold P. rewrite filter_app, fmap_app, filter_cons, decide_False by congruence.
      cbn. rewrite app_nil_r. reflexivity.
Qed.

(** The pieces hold each element once. *)
Lemma pieces_perm {A} (owner : A -> nat) n (l : list A) : (forall x, x ∈ l -> owner x < n) ->
  mjoin ((fun o => filter (fun x => owner x = o) l) <$> seq 0 n) ≡ₚ l.
Proof.
  induction l as [|a l IH]; intros Ho.
  - induction (seq 0 n) as [|i s IHs]; [reflexivity|]. rewrite fmap_cons, mjoin_cons. exact IHs.
  - assert (Ha : owner a < n) by (apply Ho; left). etransitivity; [|apply perm_skip, IH; intros x Hx; apply Ho; right; exact Hx].
    rewrite (seq_split3 (owner a) (owner a + 1) n) by lia. rewrite !fmap_app, !mjoin_app.
    replace (owner a + 1 - owner a) with 1 by lia. cbn [seq fmap list_fmap]. rewrite !mjoin_cons, !mjoin_nil', !app_nil_r. rewrite filter_cons, decide_True by reflexivity.
    assert (Hsame : forall s, owner a ∉ s -> mjoin ((fun o => filter (fun x => owner x = o) (a :: l)) <$> s) = mjoin ((fun o => filter (fun x => owner x = o) l) <$> s)).
    { induction s as [|o s IHs]; intros Hn; [reflexivity|]. rewrite not_elem_of_cons in Hn. destruct Hn as [Hn Hs]. rewrite !fmap_cons, !mjoin_cons, IHs by exact Hs.
      rewrite filter_cons, decide_False by exact Hn. reflexivity. }
    rewrite !Hsame by (rewrite elem_of_seq; lia). cbn [app]. rewrite <- Permutation_middle. reflexivity.
Qed.

Section Split.
Context {V : Type}.

Lemma splitCsc_fold (A : csc V) n p : wf_csc A -> 1 <= n -> p = c_rows A / n ->
  splitCsc A n = foldM (fun ps x => q <- divIT (snd (fst x)) p ;; pushTo ps (Nat.min q (n - 1)) (snd (fst x), fst (fst x), snd x)) (triples (csc_tr A)) (replicate n []).
Proof.
  intros Hw Hn ->. unfold splitCsc, divIT at 1. destruct (Nat.eqb_spec n 0) as [->|_]; [lia|]. cbn [bind].
  apply (loop_triples (csc_tr A) Hw).
  intros i j s c v Hi Hc Hv. cbn [csc_tr colids values] in Hc, Hv. rewrite (get_Some _ _ _ Hc), (get_Some _ _ _ Hv). cbn [bind fst snd].
  destruct (divIT c (c_rows A / n)); reflexivity.
Qed.

Lemma triples_tr (A : csc V) : (fun x => (snd (fst x), fst (fst x), snd x)) <$> triples (csc_tr A) = triples_csc A.
Proof.
  unfold triples, triples_csc. change (rows (csc_tr A)) with (c_cols A). unfold col_entries.
  induction (seq 0 (c_cols A)) as [|i s IH]; [reflexivity|]. rewrite !fmap_cons, !mjoin_cons, fmap_app, IH. f_equal. rewrite <- list_fmap_compose. reflexivity.
Qed.

Lemma splitCsc_ok (A : csc V) n : wf_csc A -> 1 <= n <= c_rows A ->
  splitCsc A n = Ok ((fun o => filter (fun x => Nat.min (fst (fst x) / (c_rows A / n)) (n - 1) = o) (triples_csc A)) <$> seq 0 n).
Proof.
  intros Hw Hn. rewrite (splitCsc_fold A n _ Hw ltac:(lia) eq_refl). set (p := c_rows A / n).
  assert (Hp : p <> 0) by (unfold p; pose proof (Nat.div_le_lower_bound (c_rows A) n 1 ltac:(lia) ltac:(lia)); lia).
  rewrite (foldM_ext _ (fun ps x => pushTo ps (Nat.min (snd (fst x) / p) (n - 1)) (snd (fst x), fst (fst x), snd x))).
  - rewrite <- triples_tr, push_all by (intros; lia). f_equal. apply list_fmap_ext. intros i x Hx.
    induction (triples (csc_tr A)) as [|[[c r] v] l IH]; [reflexivity|]. rewrite fmap_cons, !filter_cons. cbn [fst snd]. destruct (decide _); [rewrite fmap_cons; f_equal|]; exact IH.
  - intros s x _. unfold divIT. destruct (Nat.eqb_spec p 0); [lia|reflexivity].
Qed.

Lemma splitCsr_fold (A : csr V) n p : wf A -> 1 <= n -> p = cols A / n -> p <> 0 ->
  splitCsr A n = foldM (fun ps x => pushTo ps (Nat.min (fst (fst x) / p) (n - 1)) (fst (fst x) mod p, snd (fst x), snd x)) (triples A) (replicate n []).
Proof.
  intros Hw Hn -> Hp. unfold splitCsr, divIT at 1. destruct (Nat.eqb_spec n 0) as [->|_]; [lia|]. cbn [bind]. set (p := cols A / n) in *.
  rewrite <- (loop_triples A Hw (fun i j ps => colid <- get (colids A) j ;; r <- modIT i p ;; v <- get (values A) j ;; pushTo ps (Nat.min (i / p) (n - 1)) (r, colid, v))).
  - unfold divIT. destruct (Nat.eqb_spec p 0) as [|_]; [lia|]. reflexivity.
  - intros i j s c v Hi Hc Hv. rewrite (get_Some _ _ _ Hc), (get_Some _ _ _ Hv). unfold modIT. destruct (Nat.eqb_spec p 0) as [|_]; [lia|]. reflexivity.
Qed.

(** Entries of some rows, renumbered by [f]. *)
Definition rowsAs (A : csr V) (f : nat -> nat) (l : list nat) : list (nat * nat * V) :=
  mjoin ((fun i => (fun e => (f i, fst e, snd e)) <$> row_entries A i) <$> l).

Lemma triples_rows (A : csr V) (P : nat -> Prop) `{forall i, Decision (P i)} (f : nat -> nat) l :
  (fun x => (f (fst (fst x)), snd (fst x), snd x)) <$> filter (fun x => P (fst (fst x))) (rowsAs A id l) = rowsAs A f (filter P l).
Proof.
  unfold rowsAs. induction l as [|i l IH]; [reflexivity|]. rewrite fmap_cons, mjoin_cons, filter_app, fmap_app, IH, filter_cons.
  assert (E : filter (fun x : nat * nat * V => P (fst (fst x))) ((fun e => (id i, fst e, snd e)) <$> row_entries A i) =
    if decide (P i) then (fun e => (id i, fst e, snd e)) <$> row_entries A i else []).
  { induction (row_entries A i) as [|e r IHr]; [destruct (decide (P i)); reflexivity|]. rewrite fmap_cons, filter_cons. cbn [fst snd]. unfold id at 1. rewrite IHr. destruct (decide (P i)); reflexivity. }
  rewrite E. destruct (decide (P i)); [|reflexivity]. rewrite fmap_cons, mjoin_cons. f_equal. rewrite <- list_fmap_compose. reflexivity.
Qed.

Lemma splitCsr_ok (A : csr V) n p : wf A -> 1 <= n -> p = cols A / n -> p <> 0 ->
  splitCsr A n = Ok ((fun o => rowsAs A (fun i => i mod p) (filter (fun i => Nat.min (i / p) (n - 1) = o) (seq 0 (rows A)))) <$> seq 0 n).
Proof.
  intros Hw Hn Ep Hp. rewrite (splitCsr_fold A n p Hw Hn Ep Hp), (push_all (fun x => Nat.min (fst (fst x) / p) (n - 1)) (fun x => (fst (fst x) mod p, snd (fst x), snd x))) by (intros; lia).
  f_equal. apply list_fmap_ext. intros i x Hx. pose proof (triples_rows A (fun i => Nat.min (i / p) (n - 1) = x) (fun i => i mod p) (seq 0 (rows A))) as E. exact E.
Qed.

Lemma filter_none {A} (P : A -> Prop) `{forall x, Decision (P x)} (l : list A) : (forall x, x ∈ l -> ~ P x) -> filter P l = [].
Proof. induction l as [|a l IH]; intros Hl; [reflexivity|]. rewrite filter_cons, decide_False by (apply Hl; left). apply IH. intros x Hx. apply Hl. right. exact Hx. Qed.
Lemma filter_every {A} (P : A -> Prop) `{forall x, Decision (P x)} (l : list A) : (forall x, x ∈ l -> P x) -> filter P l = l.
Proof. induction l as [|a l IH]; intros Hl; [reflexivity|]. rewrite filter_cons, decide_True by (apply Hl; left). f_equal. apply IH. intros x Hx. apply Hl. right. exact Hx. Qed.

(** The rows of a piece. *)
Lemma owned_rows n p o m : p <> 0 -> o < n -> m = n * p -> filter (fun i => Nat.min (i / p) (n - 1) = o) (seq 0 m) = seq (o * p) p.
Proof.
  intros Hp Ho ->. assert (o * p <= o * p + p <= n * p) by nia. rewrite (seq_split3 (o * p) (o * p + p) (n * p)) by lia. rewrite !filter_app.
  rewrite filter_none, filter_every, filter_none.
  - rewrite app_nil_r. replace (o * p + p - o * p) with p by lia. reflexivity.
  - intros i Hi. apply elem_of_seq in Hi. pose proof (Nat.div_le_lower_bound i p (o + 1) Hp ltac:(nia)). assert (o < n - 1 \/ o = n - 1) as [?|?] by lia; [lia|]. subst o.
    assert ((n - 1) * p + p = n * p) by (destruct n; [lia|cbn; nia]). lia.
  - intros i Hi. apply elem_of_seq in Hi. assert (i / p = o); [|lia]. symmetry. apply (Nat.div_unique i p o (i - o * p)); nia.
  - intros i Hi. apply elem_of_seq in Hi. pose proof (Nat.div_lt_upper_bound i p o Hp ltac:(nia)). lia.
Qed.

Lemma rowsAs_shift (A : csr V) p o : p <> 0 -> rowsAs A (fun i => i mod p) (seq (o * p) p) = mjoin ((fun i => (fun e => (i, fst e, snd e)) <$> row_entries A (o * p + i)) <$> seq 0 p).
Proof.
  intros Hp. unfold rowsAs. rewrite <- (Nat.add_0_r (o * p)) at 1. rewrite <- fmap_add_seq, <- list_fmap_compose. f_equal. apply list_fmap_ext. intros k i Hi. apply lookup_seq in Hi as [-> Hi].
  unfold compose. cbn [Nat.add]. rewrite Nat.add_comm, Nat.mod_add, Nat.mod_small by lia. rewrite Nat.add_comm. reflexivity.
Qed.

Lemma splitCsr_pieces (A : csr V) n p : wf A -> 1 <= n -> p = cols A / n -> p <> 0 -> rows A = n * p ->
  splitCsr A n = Ok ((fun o => mjoin ((fun i => (fun e => (i, fst e, snd e)) <$> row_entries A (o * p + i)) <$> seq 0 p)) <$> seq 0 n).
Proof.
  intros Hw Hn Ep Hp Hr. rewrite (splitCsr_ok A n p Hw Hn Ep Hp). f_equal. apply list_fmap_ext. intros k o Ho. apply lookup_seq in Ho as [-> Ho]. cbn [Nat.add].
  rewrite owned_rows by (try lia). apply rowsAs_shift, Hp.
Qed.

(** A matrix made from the entries of rows o .. o + p - 1 of another. *)
Lemma part_same (A : csr V) o p (X : csc V) : wf A -> o + p <= rows A -> distinct_rows A -> wf_csc X -> c_rows X = p -> c_cols X = cols A ->
  triples_csc X ≡ₚ mjoin ((fun i => (fun e => (i, fst e, snd e)) <$> row_entries A (o + i)) <$> seq 0 p) ->
  let A' := assemble (fun i => row_entries A (o + i)) p (cols A) in
  wf A' /\ same_matrix A' X /\ distinct_rows A' /\ forall k, k < c_cols X -> NoDup (fst <$> col_entries X k).
Proof.
  intros HA Ho DA HX Hr Hc HT A'.
  assert (HW : wf A') by (apply assemble_wf; intros i c v Hi Hv; eapply row_entries_range; eassumption).
  assert (HE : forall i, i < p -> row_entries A' i = row_entries A (o + i)) by (intros i Hi; apply (assemble_row (fun i => row_entries A (o + i))), Hi).
  assert (Hel : forall i c v, (i, c, v) ∈ triples_csc X <-> i < p /\ (c, v) ∈ row_entries A (o + i)).
  { intros i c v. rewrite HT, elem_of_list_join. split.
    - intros (l & Hx & Hl). apply elem_of_list_fmap in Hl as (i' & -> & Hi). apply elem_of_seq in Hi. apply elem_of_list_fmap in Hx as ([c' v'] & E & Hx). injection E as -> -> ->. cbn. split; [lia|exact Hx].
    - intros [Hi Hx]. eexists. split; [|apply elem_of_list_fmap; exists i; split; [reflexivity|apply elem_of_seq; lia]]. apply elem_of_list_fmap. exists (c, v). auto. }
  split; [exact HW|]. split; [constructor|split].
  - symmetry. exact Hr.
  - symmetry. exact Hc.
  - intros k j b Hk Hj. change (rows A') with p in Hk. rewrite (HE k Hk), <- triples_elem by exact HX. rewrite Hel. tauto.
  - intros i Hi. unfold row_cols. change (rows A') with p in Hi. rewrite (HE i Hi). apply DA. lia.
  - apply cols_nodup. rewrite HT. clear - DA Ho. revert DA Ho. induction p as [|p IH]; intros DA Ho; [constructor|].
    rewrite seq_S, fmap_app, mjoin_app, fmap_app. cbn [fmap list_fmap Nat.add]. rewrite mjoin_cons, mjoin_nil', app_nil_r. apply NoDup_app. split; [apply IH; [exact DA|lia]|]. split.
    + intros x Hx Hx'. apply elem_of_list_fmap in Hx as (y & -> & Hy). apply elem_of_list_join in Hy as (l & Hy & Hl). apply elem_of_list_fmap in Hl as (i & -> & Hi). apply elem_of_seq in Hi.
      apply elem_of_list_fmap in Hy as (e & -> & He). apply elem_of_list_fmap in Hx' as (z & E & Hz). apply elem_of_list_fmap in Hz as (e' & -> & He'). cbn in E. injection E as E _. lia.
    + rewrite <- list_fmap_compose. specialize (DA (o + p) ltac:(lia)). unfold row_cols in DA.
      revert DA. generalize (row_entries A (o + p)). intros r0 DA. induction r0 as [|e r IHr]; [constructor|]. change (NoDup (fst e :: (fst <$> r))) in DA. rewrite fmap_cons. apply NoDup_cons in DA as [D1 D2]. apply NoDup_cons. split; [|apply IHr, D2].
      intros Hx. apply D1. apply elem_of_list_fmap in Hx as (e' & E & He'). cbn in E. injection E as E. apply elem_of_list_fmap. exists e'. auto.
Qed.
End Split.
