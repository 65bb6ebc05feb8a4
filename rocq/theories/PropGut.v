(** C66: the graph programs answer for the graph in the file: read_grb_mtx, sort_by_degree, get_lowtri, convert_to_csc, and with the
    results of C39, C40 and C52 the whole way from the text of the file to the answer. *)
From stdpp Require Import gmap sorting.
From Coq Require Import ZArith QArith.Qcanon.
From Verif Require Import GutModel GutSpec GutProofs BaseProofs Assemble IoProofs PropIo GraphModel GraphProofs GraphCalls PropGraph BcModel BcProofs BcCalls PropBc MsaModel AlgModel DriverModel DriverStatements McaProofs Examples.
From Verif Require Import Base Spec.
Local Open Scope list_scope.

(** ** Reading *)
Section Read.
Context {V : Type} (ofInt : Z -> V) (rand : option (nat -> V)).

Lemma outs_elem kf sym k es t : t ∈ outs ofInt rand true kf sym k es ->
  exists r c v fr, (r, c, v, fr) ∈ es /\ r <> c /\
    ((fst t = ((Z.of_nat r - 1)%Z, (Z.of_nat c - 1)%Z)) \/ (sym = true /\ fst t = ((Z.of_nat c - 1)%Z, (Z.of_nat r - 1)%Z))).
Proof.
  revert k. induction es as [|[[[r c] v] fr] es IH]; intros k; cbn [outs]; [intros H; inversion H|].
  rewrite elem_of_app. intros [H|H].
  - exists r, c, v, fr. split; [left|]. unfold outOf in H. cbn [andb] in H. destruct (Z.eqb_spec (Z.of_nat r) (Z.of_nat c)) as [E|E]; [inversion H|].
    split; [lia|]. destruct sym; cbn [andb negb] in H.
    + apply elem_of_cons in H as [->|H]; [left; reflexivity|]. apply elem_of_list_singleton in H. subst t. right. auto.
    + apply elem_of_list_singleton in H. subst t. left. reflexivity.
  - destruct (IH _ H) as (r' & c' & v' & fr' & H1 & H2). exists r', c', v', fr'. split; [right; exact H1|exact H2].
Qed.
Lemma outs_has kf sym k es r c v fr : (r, c, v, fr) ∈ es -> r <> c ->
  (exists x, ((Z.of_nat r - 1)%Z, (Z.of_nat c - 1)%Z, x) ∈ outs ofInt rand true kf sym k es) /\
  (sym = true -> exists x, ((Z.of_nat c - 1)%Z, (Z.of_nat r - 1)%Z, x) ∈ outs ofInt rand true kf sym k es).
Proof.
  intros Hin Hne. revert k. induction es as [|e es IH]; intros k; [inversion Hin|]. cbn [outs]. apply elem_of_cons in Hin as [<-|Hin].
  - unfold outOf. cbn [andb]. destruct (Z.eqb_spec (Z.of_nat r) (Z.of_nat c)) as [E|E]; [lia|]. split.
    + destruct sym; cbn [andb negb]; eexists; apply elem_of_app; left; left.
    + intros ->. cbn [andb negb]. eexists. apply elem_of_app. left. right. left.
  - destruct (IH Hin (S k)) as [(x & Hx) H2]. split; [exists x; apply elem_of_app; right; exact Hx|].
    intros E. destruct (H2 E) as (y & Hy). exists y. apply elem_of_app. right. exact Hy.
Qed.
End Read.

Lemma means_elem f i j : file_entry f i j <-> exists r c v fr, (r, c, v, fr) ∈ mm_entries f /\
  ((i = r - 1 /\ j = c - 1) \/ (mm_symm f <> SymNo /\ r <> c /\ i = c - 1 /\ j = r - 1)).
Proof.
  unfold file_entry, means. split.
  - intros (v & H). apply elem_of_list_join in H as (l & H & Hl). apply elem_of_list_fmap in Hl as ([[[r c] w] fr] & -> & He). exists r, c, w, fr. split; [exact He|].
    unfold entry_means in H. destruct (mm_symm f); [|destruct (Nat.eqb_spec r c)..].
    all: repeat match goal with H : _ ∈ _ :: _ |- _ => apply elem_of_cons in H as [H|H] | H : _ ∈ [] |- _ => inversion H end.
    all: injection H as -> -> _; first [left; split; reflexivity|right; split; [discriminate|auto]].
  - intros (r & c & w & fr & He & H).
    assert (X : exists v, (i, j, v) ∈ entry_means f (r, c, w, fr)).
    { unfold entry_means. destruct H as [[-> ->]|(Hs & Hne & -> & ->)].
      - destruct (mm_symm f); [|destruct (r =? c)..]; eexists; left.
      - destruct (mm_symm f); [congruence|destruct (Nat.eqb_spec r c); [congruence|eexists; right; left]..]. }
    destruct X as (v & Hv). exists v. apply elem_of_list_join. exists (entry_means f (r, c, w, fr)). split; [exact Hv|]. apply elem_of_list_fmap. eauto.
Qed.

Section Read2.
Context {V : Type} (minV plusV : V -> V -> V) (ofInt : Z -> V) (rand : option (nat -> V)).
Lemma build_outs f sym : mm_wf0 f -> mm_rows f = mm_cols f ->
  let A := grbBuild minV (mm_rows f) (mm_cols f) (outs ofInt rand true (mm_field f) sym 0 (mm_entries f)) in
  forall i j, is_Some (gm_ent A !! (i, j)) <-> exists r c v fr, (r, c, v, fr) ∈ mm_entries f /\ r <> c /\ ((i = r - 1 /\ j = c - 1) \/ (sym = true /\ i = c - 1 /\ j = r - 1)).
Proof.
  intros W Sq A i j. pose proof W as (_ & _ & _ & _ & _ & Hf). rewrite Forall_forall in Hf.
  assert (Rg : forallb (inRange (mm_rows f) (mm_cols f)) (outs ofInt rand true (mm_field f) sym 0 (mm_entries f)) = true).
  { apply inRange_ok. intros [[a b] x] Ht. destruct (outs_elem _ _ _ _ _ _ _ Ht) as (r & c & v & fr & He & Hne & Hc). specialize (Hf _ He). cbn in Hf, Hc. cbn [fst snd].
    destruct Hc as [E|[_ E]]; injection E as -> ->; lia. }
  unfold A, grbBuild. cbn [gm_ent]. rewrite Rg, buildEnt_some. split.
  - intros ([[a b] x] & Ht & Hk). destruct (outs_elem _ _ _ _ _ _ _ Ht) as (r & c & v & fr & He & Hne & Hc). exists r, c, v, fr. split; [exact He|]. split; [exact Hne|].
    specialize (Hf _ He). cbn in Hf, Hc. unfold key in Hk. cbn [fst snd] in Hk. injection Hk as <- <-.
    destruct Hc as [E|[Hs E]]; injection E as -> ->; [left|right]; repeat split; try assumption; lia.
  - intros (r & c & v & fr & He & Hne & Hc). destruct (outs_has ofInt rand (mm_field f) sym 0 (mm_entries f) r c v fr He Hne) as [(x & Hx) H2]. specialize (Hf _ He). cbn in Hf.
    destruct Hc as [[-> ->]|(Hs & -> & ->)].
    + eexists. split; [exact Hx|]. unfold key. cbn [fst snd]. f_equal; lia.
    + destruct (H2 Hs) as (y & Hy). eexists. split; [exact Hy|]. unfold key. cbn [fst snd]. f_equal; lia.
Qed.

(** Without symmetrizing (BCAllGrb): the arcs of the file, without loops. *)
Theorem C66_read_directed imax f t : (intmax <= imax)%Z -> mm_wf f -> mm_rows f = mm_cols f -> file_text f t ->
  exists A, readGrbMtx minV plusV ofInt true false rand imax (Some t) = Ok A /\ gm_wf A /\ gm_rows A = mm_rows f /\ gm_cols A = mm_rows f /\
    forall i j, is_Some (gm_ent A !! (i, j)) <-> file_arc f i j.
Proof.
  intros Hi W Sq Ht. unfold readGrbMtx. rewrite (read_raw ofInt rand true imax f t Hi (mm_wf_wf0 f W) Ht), bind_Ok. rewrite (isSym_ok f W).
  eexists. split; [reflexivity|]. split; [apply grbBuild_wf|]. split; [reflexivity|]. split; [symmetry; exact Sq|].
  intros i j. rewrite (build_outs f _ (mm_wf_wf0 f W) Sq). unfold file_arc. rewrite means_elem.
  pose proof (mm_wf_wf0 f W) as (_ & _ & _ & _ & _ & Hf). rewrite Forall_forall in Hf. split.
  - intros (r & c & v & fr & He & Hne & Hc). specialize (Hf _ He) as H. cbn in H. split.
    + destruct Hc as [[-> ->]|(_ & -> & ->)]; lia.
    + exists r, c, v, fr. split; [exact He|]. destruct Hc as [Hc|(Hs & Hc)]; [left; exact Hc|right]. split; [destruct (mm_symm f); [discriminate|discriminate..]|]. auto.
  - intros (Hne & r & c & v & fr & He & Hc). exists r, c, v, fr. split; [exact He|]. specialize (Hf _ He) as H. cbn in H.
    destruct Hc as [[-> ->]|(Hs & Hrc & -> & ->)]; [split; [lia|left; auto]|]. split; [exact Hrc|right]. split; [destruct (mm_symm f); [congruence|reflexivity..]|auto].
Qed.

(** With symmetrizing (TriCntAllGrb, KTrussAllGrb): the edges of the file, whatever its comments say about symmetry. *)
Theorem C66_read_undirected imax f t : (intmax <= imax)%Z -> mm_wf0 f -> mm_rows f = mm_cols f -> file_text f t ->
  exists A, readGrbMtx minV plusV ofInt true true rand imax (Some t) = Ok A /\ gm_wf A /\ gm_rows A = mm_rows f /\ gm_cols A = mm_rows f /\
    (forall i j, is_Some (gm_ent A !! (i, j)) <-> file_edge f i j) /\
    ((forall x y, plusV x y = plusV y x) -> forall i j, gm_ent A !! (i, j) = gm_ent A !! (j, i)).
Proof.
  intros Hi W Sq Ht. unfold readGrbMtx. rewrite (read_raw ofInt rand true imax f t Hi W Ht), bind_Ok. eexists. split; [reflexivity|].
  set (B := grbBuild minV (mm_rows f) (mm_cols f) (outs ofInt rand true (mm_field f) (isSym f) 0 (mm_entries f))).
  assert (SqB : gm_rows B = gm_cols B) by exact Sq.
  assert (Wb : gm_wf B) by apply grbBuild_wf. pose proof (build_outs f (isSym f) W Sq) as Hb. cbn zeta in Hb. fold B in Hb.
  assert (R1 : gm_rows (grbSymm plusV B) = mm_rows f) by (unfold grbSymm; destruct (gm_rows B =? gm_cols B); reflexivity).
  assert (R2 : gm_cols (grbSymm plusV B) = mm_rows f) by (unfold grbSymm; destruct (gm_rows B =? gm_cols B); symmetry; exact Sq).
  split; [|split; [exact R1|split; [exact R2|split]]].
  - intros i j v H. rewrite R1, R2. rewrite (grbSymm_lookup plusV B i j SqB) in H.
    destruct (gm_ent B !! (i, j)) eqn:E1; [apply Wb in E1; unfold B in E1; cbn in E1; lia|].
    destruct (gm_ent B !! (j, i)) eqn:E2; [apply Wb in E2; unfold B in E2; cbn in E2; lia|discriminate].
  - intros i j. assert (X : is_Some (gm_ent (grbSymm plusV B) !! (i, j)) <-> is_Some (gm_ent B !! (i, j)) \/ is_Some (gm_ent B !! (j, i))).
    { rewrite (grbSymm_lookup plusV B i j SqB). destruct (gm_ent B !! (i, j)), (gm_ent B !! (j, i)); unfold is_Some; split; eauto; intros [[? ?]|[? ?]]; discriminate. }
    rewrite X, !Hb. unfold file_edge, file_arc. rewrite !means_elem. pose proof W as (_ & _ & _ & _ & _ & Hf). rewrite Forall_forall in Hf. split.
    + intros [(r & c & v & fr & He & Hne & Hc)|(r & c & v & fr & He & Hne & Hc)]; specialize (Hf _ He) as H; cbn in H.
      * destruct Hc as [[-> ->]|(_ & -> & ->)]; [left|right]; (split; [lia|]); exists r, c, v, fr; auto.
      * destruct Hc as [[-> ->]|(_ & -> & ->)]; [right|left]; (split; [lia|]); exists r, c, v, fr; auto.
    + intros [(Hne & r & c & v & fr & He & Hc)|(Hne & r & c & v & fr & He & Hc)]; specialize (Hf _ He) as H; cbn in H.
      * destruct Hc as [[-> ->]|(_ & Hrc & -> & ->)]; [left|right]; exists r, c, v, fr; (split; [exact He|]; split; [lia|left; auto]).
      * destruct Hc as [[-> ->]|(_ & Hrc & -> & ->)]; [right|left]; exists r, c, v, fr; (split; [exact He|]; split; [lia|left; auto]).
  - intros Hc i j. rewrite !(grbSymm_lookup plusV B _ _ SqB). destruct (gm_ent B !! (i, j)), (gm_ent B !! (j, i)); try reflexivity. f_equal. apply Hc.
Qed.
End Read2.

(** ** Sorting by degree *)
Lemma sorted_not (cnts : list (nat * nat)) i j ci cj : StronglySorted (fun a b => ~ pair_lt a b) cnts -> i < j -> cnts !! i = Some ci -> cnts !! j = Some cj -> ~ pair_lt ci cj.
Proof.
  intros So. revert i j. induction So as [|c l So IH F]; intros i j Hij Hi Hj; [discriminate|]. destruct j as [|j]; [lia|]. destruct i as [|i].
  - cbn in Hi, Hj. injection Hi as ->. rewrite Forall_forall in F. apply F. eapply elem_of_list_lookup_2, Hj.
  - cbn in Hi, Hj. apply (IH i j); [lia|assumption..].
Qed.
Lemma sorted_before (cnts : list (nat * nat)) n v w : snd <$> cnts ≡ₚ seq 0 n -> StronglySorted (fun a b => ~ pair_lt a b) cnts ->
  forall d : nat -> nat, (forall c, c ∈ cnts -> fst c = d (snd c)) -> v < n -> w < n -> pair_lt (d v, v) (d w, w) -> posOf (snd <$> cnts) w < posOf (snd <$> cnts) v.
Proof.
  intros P So d De Hv Hw Hlt. destruct (posOf_permutes n (snd <$> cnts) P) as [[_ Pi] Pl].
  assert (G : forall x, x < n -> cnts !! posOf (snd <$> cnts) x = Some (d x, x)).
  { intros x Hx. pose proof (Pl x Hx) as Q. rewrite list_lookup_fmap in Q. destruct (cnts !! posOf (snd <$> cnts) x) as [[a b]|] eqn:E; [|discriminate]. cbn in Q. injection Q as ->.
    pose proof (De (a, x) ltac:(eapply elem_of_list_lookup_2, E)) as Q. cbn in Q. rewrite Q. reflexivity. }
  destruct (decide (posOf (snd <$> cnts) w < posOf (snd <$> cnts) v)) as [|Hge]; [assumption|exfalso].
  destruct (decide (posOf (snd <$> cnts) v = posOf (snd <$> cnts) w)) as [E|Hne].
  - apply Pi in E; [|assumption..]. subst w. unfold pair_lt in Hlt. cbn in Hlt. lia.
  - apply (sorted_not cnts (posOf (snd <$> cnts) v) (posOf (snd <$> cnts) w) (d v, v) (d w, w) So); [lia|apply G, Hv|apply G, Hw|exact Hlt].
Qed.
(** A square matrix: the vertices get new numbers, every entry keeps its value under the new numbers, and the rows come in order of falling degree. *)
Theorem C66_sort : forall V (minV : V -> V -> V) srt (A : gm V) its, sort_greater srt -> gm_wf A -> gm_rows A = gm_cols A -> extracted A its ->
  exists A' p, sortByDegree minV srt its A = Ok A' /\ gm_rows A' = gm_rows A /\ gm_cols A' = gm_cols A /\ gm_wf A' /\ permutes (gm_rows A) p /\
    (forall i j, i < gm_rows A -> j < gm_rows A -> gm_ent A' !! (p i, p j) = gm_ent A !! (i, j)) /\
    (forall i j, i < j -> j < gm_rows A -> degree A' j <= degree A' i) /\
    (forall v w, v < gm_rows A -> w < gm_rows A -> pair_lt (degree A v, v) (degree A w, w) -> p w < p v).
Proof.
  intros V minV srt A l Hs W Sq X. destruct (sortByDegree_eq minV srt l A Hs W X) as (cnts & P & So & De & ->).
  rewrite decide_True; [|apply Forall_forall; intros [[r c] v] Ht; unfold extracted in X; rewrite X in Ht; apply elem_of_map_to_list in Ht; cbn; rewrite Sq; apply (W _ _ _ Ht)].
  rewrite <- Sq. set (n := gm_rows A) in *. destruct (posOf_permutes n (snd <$> cnts) P) as [Pp Pl]. set (p := posOf (snd <$> cnts)) in *.
  destruct (renum_build minV p n A l Pp W X eq_refl (eq_sym Sq)) as (Lk & Dg & _).
  eexists _, p. split; [reflexivity|]. split; [reflexivity|]. split; [reflexivity|]. split; [apply grbBuild_wf|]. split; [exact Pp|]. split; [exact Lk|]. split; [|intros v w Hv Hw Hlt; exact (sorted_before cnts n v w P So (degree A) De Hv Hw Hlt)].
  intros i j Hij Hj. assert (L : length cnts = n) by (rewrite <- (fmap_length snd), P; apply seq_length). assert (N : NoDup (snd <$> cnts)) by (rewrite P; apply NoDup_seq).
  destruct (lookup_lt_is_Some_2 cnts i) as [ci Hi']; [lia|]. destruct (lookup_lt_is_Some_2 cnts j) as [cj Hj']; [lia|].
  assert (Si : (snd <$> cnts) !! i = Some (snd ci)) by (rewrite list_lookup_fmap, Hi'; reflexivity). assert (Sj : (snd <$> cnts) !! j = Some (snd cj)) by (rewrite list_lookup_fmap, Hj'; reflexivity).
  assert (B : forall k c, (snd <$> cnts) !! k = Some c -> c < n). { intros k c Hk. apply elem_of_list_lookup_2 in Hk. rewrite P in Hk. apply elem_of_seq in Hk. lia. }
  rewrite <- (posOf_ok _ i (snd ci) N Si). rewrite <- (posOf_ok _ j (snd cj) N Sj). fold p. rewrite !Dg by (eapply B; eassumption).
  rewrite <- (De ci) by (eapply elem_of_list_lookup_2; eassumption). rewrite <- (De cj) by (eapply elem_of_list_lookup_2; eassumption).
  pose proof (sorted_not cnts i j ci cj So Hij Hi' Hj') as Q. unfold pair_lt in Q. lia.
Qed.
(** Findings.  An entry whose column is not also a row number: the mapping is read past its end. *)
Theorem C66_sort_wide_refuted : forall V (minV : V -> V -> V) srt (A : gm V) its i j v, sort_greater srt -> gm_wf A -> extracted A its ->
  gm_ent A !! (i, j) = Some v -> gm_rows A <= j -> sortByDegree minV srt its A = Err OutOfBounds.
Proof.
  intros V minV srt A l i j v Hs W X H Hj. destruct (sortByDegree_eq minV srt l A Hs W X) as (cnts & _ & _ & _ & ->).
  rewrite decide_False; [reflexivity|]. intros F. rewrite Forall_forall in F. assert (Q : (i, j, v) ∈ l) by (unfold extracted in X; rewrite X; apply elem_of_map_to_list, H).
  specialize (F _ Q). cbn in F. lia.
Qed.
(** A matrix with more rows than columns: if a column is preceded by as many rows as there are columns, its new number is outside, the build fails and all entries are lost. *)
Theorem C66_sort_tall_refuted : forall V (minV : V -> V -> V) srt (A : gm V) its i c v rs, sort_greater srt -> gm_wf A -> extracted A its -> gm_cols A < gm_rows A ->
  gm_ent A !! (i, c) = Some v -> NoDup rs -> length rs = gm_cols A -> (forall r, r ∈ rs -> r < gm_rows A /\ pair_lt (degree A c, c) (degree A r, r)) ->
  sortByDegree minV srt its A = Ok (mkGm (gm_rows A) (gm_cols A) ∅).
Proof.
  intros V minV srt A l i c v rs Hs W X Hlt Hv Nr Lr Hr. destruct (sortByDegree_eq minV srt l A Hs W X) as (cnts & P & So & De & ->).
  rewrite decide_True; [|apply Forall_forall; intros [[r c'] v'] Ht; unfold extracted in X; rewrite X in Ht; apply elem_of_map_to_list in Ht; cbn; pose proof (W _ _ _ Ht); lia].
  f_equal. unfold grbBuild. f_equal. destruct (forallb _ _) eqn:F; [|reflexivity]. exfalso.
  set (n := gm_rows A) in *. destruct (posOf_permutes n (snd <$> cnts) P) as [[Pp Pi] Pl]. set (p := posOf (snd <$> cnts)) in *.
  assert (Hc : c < n) by (pose proof (W _ _ _ Hv); unfold n; lia).
  assert (B : p c < gm_cols A).
  { pose proof (proj1 (inRange_ok _ _ _) F (renum p (i, c, v))) as Q. cbn in Q. apply Nat2Z.inj_lt. apply Q. apply elem_of_list_fmap. exists (i, c, v). split; [reflexivity|].
    unfold extracted in X. rewrite X. apply elem_of_map_to_list, Hv. }
  assert (L : length (p <$> rs) <= length (seq 0 (p c))).
  { apply submseteq_length, NoDup_submseteq.
    - clear -Nr Pi Hr. induction Nr as [|x l Hn Hd IH]; [constructor|]. rewrite fmap_cons. constructor; [|apply IH; intros; apply Hr; right; assumption].
      intros Q. apply elem_of_list_fmap in Q as (y & E & Hy). apply Pi in E; [subst y; contradiction|apply Hr; left|apply Hr; right; exact Hy].
    - intros x Hx. apply elem_of_list_fmap in Hx as (r & -> & Hx). destruct (Hr r Hx) as [Hrn Hlt']. apply elem_of_seq.
      pose proof (sorted_before cnts n c r P So (degree A) De Hc Hrn Hlt'). fold p in H. lia. }
  rewrite fmap_length, seq_length in L. lia.
Qed.


(** ** From the file to the answer *)
Lemma repr_edge {V} (A : gm V) T i j : gm_wf A -> repr A T -> edge T i j <-> is_Some (gm_ent A !! (i, j)).
Proof.
  intros W (_ & _ & Hr & _ & He). unfold edge, row_cols. rewrite elem_of_list_fmap. split.
  - intros (Hi & [k v] & -> & Hk). apply He in Hk; [|lia]. cbn. eauto.
  - intros [v Hv]. destruct (W _ _ _ Hv) as [Hi Hj]. split; [lia|]. exists (j, v). split; [reflexivity|]. apply He; assumption.
Qed.
Lemma repr_good {V} n (A : gm V) T : gm_rows A = n -> gm_cols A = n -> repr A T -> good n T.
Proof. intros H1 H2 (R1 & R2 & R3 & R4 & _). split; [exact R1|]. split; [exact R2|]. split; congruence. Qed.
Lemma rows_eq {V} (l1 l2 : list (nat * V)) : StronglySorted lt (fst <$> l1) -> StronglySorted lt (fst <$> l2) -> (forall e, e ∈ l1 <-> e ∈ l2) -> l1 = l2.
Proof.
  assert (G : forall l : list (nat * V), StronglySorted lt (fst <$> l) -> StronglySorted (fun a b => fst a < fst b) l /\ NoDup l).
  { induction l as [|e l IH]; [split; constructor|]. rewrite fmap_cons. intros S. inversion S as [|? ? S1 S2]; subst. destruct (IH S1) as [I1 I2].
    rewrite Forall_fmap in S2. split; constructor; try assumption. intros Hin. rewrite Forall_forall in S2. specialize (S2 _ Hin). cbn in S2. lia. }
  intros H1 H2 He. destruct (G _ H1) as [S1 N1]. destruct (G _ H2) as [S2 N2].
  assert (AntiSymm (=) (fun a b : nat * V => fst a < fst b)) by (intros a b ? ?; lia).
  apply (StronglySorted_unique (fun a b : nat * V => fst a < fst b)); [exact S1|exact S2|]. apply NoDup_Permutation; assumption.
Qed.
Lemma filter_sorted {V} i (l : list (nat * V)) : StronglySorted lt (fst <$> l) -> StronglySorted lt (fst <$> filter (fun e => fst e < i) l).
Proof.
  induction l as [|e l IH]; [constructor|]. rewrite fmap_cons. intros S. inversion S as [|? ? S1 S2]; subst. rewrite filter_cons. destruct (decide _); [|apply IH, S1].
  rewrite fmap_cons. constructor; [apply IH, S1|]. rewrite Forall_fmap in S2 |- *. rewrite Forall_forall in S2 |- *. intros x Hx. apply elem_of_list_filter in Hx as [_ Hx]. apply S2, Hx.
Qed.
(** The entries below the diagonal. *)
Theorem C66_lowtri : forall V (A : gm V), gm_rows A = gm_cols A ->
  gm_rows (getLowtri A) = gm_rows A /\ gm_cols (getLowtri A) = gm_cols A /\
  forall i j v, gm_ent (getLowtri A) !! (i, j) = Some v <-> gm_ent A !! (i, j) = Some v /\ j < i.
Proof.
  intros V A Sq. unfold getLowtri. cbn [gm_rows gm_cols gm_ent]. rewrite <- Sq, Nat.eqb_refl. split; [reflexivity|]. split; [reflexivity|].
  intros i j v. rewrite map_filter_lookup_Some. cbn. reflexivity.
Qed.
Lemma lowtri_wf {V} (A : gm V) : gm_rows A = gm_cols A -> gm_wf A -> gm_wf (getLowtri A).
Proof. intros Sq W i j v H. destruct (C66_lowtri V A Sq) as (-> & -> & L). apply L in H as [H _]. apply (W _ _ _ H). Qed.
Lemma lowTri_of A T L : gm_wf A -> gm_rows A = gm_cols A -> repr A T -> repr (getLowtri A) L -> lowTri T L.
Proof.
  intros W Sq (T1 & T2 & T3 & T4 & T5) (L1 & L2 & L3 & L4 & L5). destruct (C66_lowtri Z A Sq) as (G1 & G2 & G3). split; [exact L1|]. split; [congruence|]. split; [congruence|].
  intros i Hi. apply rows_eq.
  - apply (L2 i). rewrite L3, G1, <- T3. exact Hi.
  - apply filter_sorted, (T2 i), Hi.
  - intros [j v]. rewrite elem_of_list_filter, L5 by (rewrite G1, <- T3; exact Hi). rewrite T5 by (rewrite <- T3; exact Hi). rewrite G3. cbn. tauto.
Qed.

(** Triangles do not depend on the numbers of the vertices. *)
Definition sort3 (x y z : nat) : nat * nat * nat :=
  if decide (x < y) then if decide (y < z) then (x, y, z) else if decide (x < z) then (x, z, y) else (z, x, y)
  else if decide (x < z) then (y, x, z) else if decide (y < z) then (y, z, x) else (z, y, x).
Definition in3 (w : nat) (t : nat * nat * nat) : Prop := w = fst (fst t) \/ w = snd (fst t) \/ w = snd t.
Lemma sort3_ok x y z : x <> y -> y <> z -> x <> z -> let t := sort3 x y z in
  fst (fst t) < snd (fst t) /\ snd (fst t) < snd t /\ forall w, in3 w t <-> in3 w (x, y, z).
Proof. intros. subst t. unfold sort3, in3. repeat destruct (decide _); cbn; (split; [lia|]); (split; [lia|]); intros w; tauto. Qed.
Lemma in3_uniq a b c a' b' c' : a < b -> b < c -> a' < b' -> b' < c' -> in3 a (a', b', c') -> in3 b (a', b', c') -> in3 c (a', b', c') -> (a, b, c) = (a', b', c').
Proof. unfold in3. cbn. intros. assert (a = a' /\ b = b' /\ c = c') as (-> & -> & ->) by lia. reflexivity. Qed.
Lemma permutes_onto n p : permutes n p -> forall w, w < n -> exists v, v < n /\ p v = w.
Proof.
  intros [Pr Pi] w Hw. assert (S : p <$> seq 0 n ≡ₚ seq 0 n).
  { apply submseteq_Permutation_length_eq; [rewrite fmap_length; reflexivity|apply NoDup_submseteq].
    - assert (Q : forall v, v ∈ seq 0 n -> v < n) by (intros v Hv; apply elem_of_seq in Hv; lia). pose proof (NoDup_seq 0 n) as Nd. clear -Q Nd Pi.
      induction Nd as [|x l Hn Hd IH]; [constructor|]. rewrite fmap_cons. constructor; [|apply IH; intros; apply Q; right; assumption].
      intros H. apply elem_of_list_fmap in H as (y & Ey & Hy). apply Pi in Ey; [subst y; contradiction|apply Q; left|apply Q; right; exact Hy].
    - intros x Hx. apply elem_of_list_fmap in Hx as (v & -> & Hv). apply elem_of_seq in Hv. apply elem_of_seq. pose proof (Pr v). lia. }
  assert (H : w ∈ p <$> seq 0 n) by (rewrite S; apply elem_of_seq; lia). apply elem_of_list_fmap in H as (v & -> & Hv). apply elem_of_seq in Hv. exists v. split; [lia|reflexivity].
Qed.
Lemma triangles_relabel n (E E' : nat -> nat -> Prop) p ts : permutes n p -> (forall i j, E i j -> i < n /\ j < n /\ i <> j /\ E j i) -> (forall i j, E' i j -> i < n /\ j < n) ->
  (forall i j, i < n -> j < n -> E' (p i) (p j) <-> E i j) -> triangles E ts -> exists ts', triangles E' ts' /\ length ts' = length ts.
Proof.
  intros [Pr Pi] HE HE' Hp [Nt Ht].
  assert (Sj : forall w, w < n -> exists v, v < n /\ p v = w) by (intros w; apply (permutes_onto n p (conj Pr Pi))).
  set (g := fun t : nat * nat * nat => sort3 (p (fst (fst t))) (p (snd (fst t))) (p (snd t))).
  assert (D : forall a b c, (a, b, c) ∈ ts -> a < n /\ b < n /\ c < n /\ p a <> p b /\ p b <> p c /\ p a <> p c).
  { intros a b c H. apply Ht in H as (H1 & H2 & H3 & H4 & H5). apply HE in H3, H4. destruct H3 as (Ha & Hb & _), H4 as (_ & Hc & _).
    split; [exact Ha|]. split; [exact Hb|]. split; [exact Hc|]. split; [|split]; intros Q; apply Pi in Q; lia. }
  exists (g <$> ts). split; [|apply fmap_length]. split.
  - assert (Inj : forall t1 t2, t1 ∈ ts -> t2 ∈ ts -> g t1 = g t2 -> t1 = t2).
    { intros [[a b] c] [[a' b'] c'] H1 H2 Q. pose proof (D _ _ _ H1) as (Ha & Hb & Hc & D1 & D2 & D3). pose proof (D _ _ _ H2) as (Ha' & Hb' & Hc' & D1' & D2' & D3').
      unfold g in Q. cbn [fst snd] in Q. destruct (sort3_ok _ _ _ D1 D2 D3) as (_ & _ & I1). destruct (sort3_ok _ _ _ D1' D2' D3') as (_ & _ & I2). rewrite Q in I1.
      assert (K : forall v, v < n -> in3 (p v) (p a, p b, p c) -> in3 v (a', b', c')).
      { intros v Hv Hin. apply I1, I2 in Hin. unfold in3 in *. cbn in *. destruct Hin as [Hin|[Hin|Hin]]; apply Pi in Hin; auto. }
      apply Ht in H1 as (? & ? & _), H2 as (? & ? & _). apply in3_uniq; try assumption; apply K; try assumption; unfold in3; cbn; auto. }
    clear -Nt Inj. induction Nt as [|t l Hn Hd IH]; [constructor|]. rewrite fmap_cons. constructor; [|apply IH; intros; apply Inj; [right..|]; assumption].
    intros H. apply elem_of_list_fmap in H as (t' & Q & Ht'). apply Inj in Q; [subst t'; contradiction|left|right; exact Ht'].
  - intros a' b' c'. rewrite elem_of_list_fmap. split.
    + intros ([[a b] c] & Q & Hin). pose proof (D _ _ _ Hin) as (Ha & Hb & Hc & D1 & D2 & D3). unfold g in Q. cbn [fst snd] in Q.
      destruct (sort3_ok _ _ _ D1 D2 D3) as (O1 & O2 & I1). rewrite <- Q in O1, O2, I1. cbn in O1, O2. split; [exact O1|]. split; [exact O2|].
      apply Ht in Hin as (_ & _ & Eab & Ebc & Eac).
      assert (K : forall x y, in3 x (p a, p b, p c) -> in3 y (p a, p b, p c) -> x <> y -> E' x y).
      { intros x y Hx Hy Hne. pose proof (proj2 (proj2 (proj2 (HE _ _ Eab)))). pose proof (proj2 (proj2 (proj2 (HE _ _ Ebc)))). pose proof (proj2 (proj2 (proj2 (HE _ _ Eac)))).
        unfold in3 in Hx, Hy. cbn in Hx, Hy. destruct Hx as [->|[->| ->]], Hy as [->|[->| ->]]; try congruence; apply Hp; assumption. }
      assert (M1 : in3 a' (p a, p b, p c)) by (apply I1; unfold in3; cbn; auto). assert (M2 : in3 b' (p a, p b, p c)) by (apply I1; unfold in3; cbn; auto). assert (M3 : in3 c' (p a, p b, p c)) by (apply I1; unfold in3; cbn; auto).
      split; [|split]; apply K; try assumption; lia.
    + intros (O1 & O2 & Eab & Ebc & Eac). destruct (HE' _ _ Eab) as [Ba Bb]. destruct (HE' _ _ Ebc) as [_ Bc].
      destruct (Sj a' Ba) as (a & Ha & <-). destruct (Sj b' Bb) as (b & Hb & <-). destruct (Sj c' Bc) as (c & Hc & <-).
      apply Hp in Eab, Ebc, Eac; try assumption. pose proof (HE _ _ Eab) as (_ & _ & N1 & S1). pose proof (HE _ _ Ebc) as (_ & _ & N2 & S2). pose proof (HE _ _ Eac) as (_ & _ & N3 & S3).
      destruct (sort3_ok a b c N1 N2 N3) as (Q1 & Q2 & I). destruct (sort3 a b c) as [[x y] z] eqn:Es. cbn in Q1, Q2. exists (x, y, z).
      assert (M : (x, y, z) ∈ ts).
      { assert (K : forall u v, in3 u (a, b, c) -> in3 v (a, b, c) -> u <> v -> E u v) by (intros u v Hu Hv Hne; unfold in3 in Hu, Hv; cbn in Hu, Hv; destruct Hu as [->|[->| ->]], Hv as [->|[->| ->]]; try congruence; assumption).
        assert (in3 x (a, b, c)) by (apply I; unfold in3; cbn; auto). assert (in3 y (a, b, c)) by (apply I; unfold in3; cbn; auto). assert (in3 z (a, b, c)) by (apply I; unfold in3; cbn; auto).
        apply Ht. split; [exact Q1|]. split; [exact Q2|]. split; [|split]; apply K; try assumption; lia. }
      split; [|exact M]. pose proof (D _ _ _ M) as (_ & _ & _ & D1 & D2 & D3). unfold g. cbn [fst snd].
      destruct (sort3_ok _ _ _ D1 D2 D3) as (R1 & R2 & J). destruct (sort3 (p x) (p y) (p z)) as [[u v] w]. cbn in R1, R2.
      assert (K : forall q, in3 q (a, b, c) -> in3 (p q) (u, v, w)).
      { intros q Hq. apply J. apply I in Hq. unfold in3 in *. cbn in *. destruct Hq as [->|[->| ->]]; auto. }
      apply in3_uniq; try assumption; apply K; unfold in3; cbn; auto.
Qed.

Lemma file_edge_in f i j : mm_wf0 f -> mm_rows f = mm_cols f -> file_edge f i j -> i < mm_rows f /\ j < mm_rows f /\ i <> j /\ file_edge f j i.
Proof.
  intros W Sq H. pose proof W as (_ & _ & _ & _ & _ & Hf). rewrite Forall_forall in Hf.
  assert (G : forall a b, file_arc f a b -> a < mm_rows f /\ b < mm_rows f).
  { intros a b (_ & Ha). apply means_elem in Ha as (r & c & v & fr & He & Hc). specialize (Hf _ He). cbn in Hf. lia. }
  destruct H as [H|H]; pose proof (G _ _ H); destruct H as [Hne H']; (split; [lia|]; split; [lia|]; split; [lia|]); [right|left]; split; auto.
Qed.

(** TriCntAllGrb: read, renumber by degree, take the lower triangle, multiply, add up: the number of triangles of the graph in the file. *)
Theorem C66_triangles : forall minV plusV ofInt rand imax f t srt mxm, (intmax <= imax)%Z -> mm_wf0 f -> mm_rows f = mm_cols f -> 0 < mm_rows f -> file_text f t ->
  sort_greater srt -> libraryCall (mm_rows f) mxm ->
  exists A, readGrbMtx minV plusV ofInt true true rand imax (Some t) = Ok A /\
  forall its, extracted A its -> exists A', sortByDegree minV srt its A = Ok A' /\
  (exists L, repr (getLowtri A') L) /\ forall L, repr (getLowtri A') L ->
  (exists C, mxm L C) /\ forall C ts, mxm L C -> triangles (file_edge f) ts -> reduceSum C = Z.of_nat (length ts).
Proof.
  intros minV plusV ofInt rand imax f t srt mxm Hi W Sq Hpos Ht Hs HL.
  destruct (C66_read_undirected minV plusV ofInt rand imax f t Hi W Sq Ht) as (A & EA & WA & RA & CA & HA & _). exists A. split; [exact EA|].
  intros its X. destruct (C66_sort Z minV srt A its Hs WA ltac:(congruence) X) as (A' & p & ES & RA' & CA' & WA' & Pp & Lk & _ & _). exists A'. split; [exact ES|].
  assert (SqA' : gm_rows A' = gm_cols A') by congruence. split; [exists (csrOf (getLowtri A')); apply csrOf_repr, lowtri_wf; assumption|].
  intros L RL. set (T := csrOf A'). assert (RT : repr A' T) by (apply csrOf_repr; exact WA').
  assert (Ed : forall i j, edge T i j <-> is_Some (gm_ent A' !! (i, j))) by (intros i j; apply repr_edge; assumption).
  assert (Hn : 1 <= mm_rows f) by lia.
  assert (Ep : forall i j, i < mm_rows f -> j < mm_rows f -> edge T (p i) (p j) <-> file_edge f i j).
  { intros i j Hi' Hj'. rewrite Ed, Lk by (rewrite RA; assumption). apply HA. }
  assert (HE : forall i j, file_edge f i j -> i < mm_rows f /\ j < mm_rows f /\ i <> j /\ file_edge f j i) by (intros i j; apply file_edge_in; assumption).
  assert (HE' : forall i j, edge T i j -> i < mm_rows f /\ j < mm_rows f).
  { intros i j Hij. apply Ed in Hij as [v Hv]. apply WA' in Hv. lia. }
  rewrite RA in Pp.
  assert (Sym : symmetric_rel (edge T)).
  { intros i j Hij. apply Ed. apply Ed in Hij. destruct Hij as [v Hv]. pose proof (WA' _ _ _ Hv).
    assert (Sj : forall w, w < mm_rows f -> exists x, x < mm_rows f /\ p x = w) by (intros w Hw; apply (permutes_onto (mm_rows f) p Pp w Hw)).
    destruct (Sj i) as (a & Ha & <-); [lia|]. destruct (Sj j) as (b & Hb & <-); [lia|].
    apply Ed, Ep; [exact Hb|exact Ha|]. apply HE, Ep; [exact Ha|exact Hb|]. apply Ed. eauto. }
  destruct (C40_triangles (mm_rows f) mxm T L HL Hn (repr_good (mm_rows f) A' T ltac:(congruence) ltac:(congruence) RT) Sym (lowTri_of A' T L WA' SqA' RT RL)) as [Hex Hall].
  split; [exact Hex|]. intros C ts HC Hts. destruct (triangles_relabel (mm_rows f) (file_edge f) (edge T) p ts Pp HE HE' Ep Hts) as (ts' & [N' H'] & Lt).
  rewrite <- Lt. apply (Hall C HC ts' N' H').
Qed.
Print Assumptions C66_triangles.

(** KTrussAllGrb: the k-truss of the graph in the file. *)
Lemma largest_iff s (E0 E0' E : nat -> nat -> Prop) : (forall i j, E0 i j <-> E0' i j) -> largest_trussed s E0 E -> largest_trussed s E0' E.
Proof.
  intros H (H1 & H2 & H3). split; [intros i j Hij; apply H, H1, Hij|]. split; [exact H2|]. intros S HS HT. apply H3; [|exact HT]. intros i j Hij. apply H, HS, Hij.
Qed.
Theorem C66_ktruss : forall minV plusV ofInt rand imax f t k mxm, (intmax <= imax)%Z -> mm_wf0 f -> mm_rows f = mm_cols f -> 0 < mm_rows f -> file_text f t ->
  3 <= k -> libraryCall (mm_rows f) mxm ->
  exists A, readGrbMtx minV plusV ofInt true true rand imax (Some t) = Ok A /\
  (exists T, repr A T) /\ forall T, repr A T ->
  (exists R nsteps, kloop mxm k T (nnz T) R nsteps) /\
  forall R nsteps, kloop mxm k T (nnz T) R nsteps -> largest_trussed (k - 2) (file_edge f) (edge R) /\ symmetric_rel (edge R).
Proof.
  intros minV plusV ofInt rand imax f t k mxm Hi W Sq Hpos Ht Hk HL.
  destruct (C66_read_undirected minV plusV ofInt rand imax f t Hi W Sq Ht) as (A & EA & WA & RA & CA & HA & _). exists A. split; [exact EA|].
  split; [exists (csrOf A); apply csrOf_repr, WA|]. intros T RT.
  assert (Ed : forall i j, edge T i j <-> file_edge f i j) by (intros i j; rewrite <- HA; apply repr_edge; assumption).
  destruct (C39_ktruss_partial (mm_rows f) k mxm T HL ltac:(lia) Hk (repr_good (mm_rows f) A T RA CA RT)) as (Hex & _ & Hall). split; [exact Hex|].
  intros R st HR. destruct (Hall R st HR) as (_ & _ & Hlt & Hsy). split; [exact (largest_iff _ _ _ _ Ed Hlt)|].
  apply Hsy. intros i j Hij. apply Ed. apply Ed in Hij. destruct Hij; [right|left]; assumption.
Qed.
Print Assumptions C66_ktruss.

(** BCAllGrb: the centralities, seen from the sources, in the directed graph in the file. *)
Lemma walk_iff (E E' : nat -> nat -> Prop) s t l : (forall i j, E i j -> E' i j) -> walk E s t l -> walk E' s t l.
Proof. intros H Hw. induction Hw; econstructor; eauto. Qed.
Lemma shortest_iff (E E' : nat -> nat -> Prop) s t l : (forall i j, E i j <-> E' i j) -> shortest E s t l <-> shortest E' s t l.
Proof.
  intros H. split; intros [H1 H2]; (split; [eapply walk_iff; [|exact H1]; apply H|]); intros l' Hl'; apply H2; (eapply walk_iff; [|exact Hl']); apply H.
Qed.
Lemma counts_iff P Q m : (forall l, P l <-> Q l) -> counts P m -> counts Q m.
Proof. intros H (ls & H1 & H2 & H3). exists ls. split; [exact H1|]. split; [|exact H3]. intros l. rewrite H2. apply H. Qed.
Theorem C66_bc : forall minV plusV ofInt rand imax f t srcs mxmP mxmC, (intmax <= imax)%Z -> mm_wf f -> mm_rows f = mm_cols f -> file_text f t ->
  0 < length srcs -> Forall (fun v => v < mm_rows f) srcs -> bcCalls (mm_rows f) (length srcs) mxmP mxmC ->
  exists A, readGrbMtx minV plusV ofInt true false rand imax (Some t) = Ok A /\
  (exists T, repr A T) /\ forall T, repr A T ->
  (exists rounds delta, bcRun mxmC mxmP T srcs rounds delta) /\
  forall rounds delta sp spv, bcRun mxmC mxmP T srcs rounds delta ->
    (forall s t, s ∈ srcs -> t < mm_rows f -> counts (shortest (file_arc f) s t) (sp s t)) ->
    (forall s t v, s ∈ srcs -> t < mm_rows f -> v < mm_rows f -> counts (fun l => shortest (file_arc f) s t l /\ v ∈ l) (spv s t v)) ->
    delta = (fun v => Some (centrality (mm_rows f) srcs sp spv v)) <$> seq 0 (mm_rows f).
Proof.
  intros minV plusV ofInt rand imax f t srcs mxmP mxmC Hi W Sq Ht Hs Hf Hc.
  destruct (C66_read_directed minV plusV ofInt rand imax f t Hi W Sq Ht) as (A & EA & WA & RA & CA & HA). exists A. split; [exact EA|].
  split; [exists (csrOf A); apply csrOf_repr, WA|]. intros T RT.
  assert (Ed : forall i j, edge T i j <-> file_arc f i j) by (intros i j; rewrite <- HA; apply repr_edge; assumption).
  destruct (C52_centrality_partial (mm_rows f) T srcs mxmP mxmC Hc (repr_good (mm_rows f) A T RA CA RT) Hs Hf) as [Hex Hall]. split; [exact Hex|].
  intros rounds delta sp spv HR H1 H2. apply (Hall rounds delta sp spv HR).
  - intros s t' Hs' Ht'. eapply counts_iff; [|apply (H1 s t' Hs' Ht')]. intros l. symmetry. apply shortest_iff, Ed.
  - intros s t' v Hs' Ht' Hv. eapply counts_iff; [|apply (H2 s t' v Hs' Ht' Hv)]. intros l. cbn. rewrite (shortest_iff _ _ s t' l Ed). reflexivity.
Qed.
Print Assumptions C66_bc.

(** convert_to_csc copies the matrix. *)
Theorem C66_convert : forall V (minV : V -> V -> V) (A : gm V) its, gm_wf A -> extracted A its -> convertToCsc minV its A = A.
Proof.
  intros V minV A l W X. unfold convertToCsc, grbBuild. destruct A as [m n Ent]. cbn [gm_rows gm_cols]. unfold extracted in X. cbn [gm_ent] in X.
  set (g := fun '(r, c, v) => (Z.of_nat r, Z.of_nat c, v) : Z * Z * V).
  assert (Hg : forall t, g t = renum id t) by (intros [[r c] v]; reflexivity).
  assert (Hin : forall i j v, (i, j, v) ∈ l <-> Ent !! (i, j) = Some v) by (intros i j v; rewrite X; apply elem_of_map_to_list).
  assert (F : forallb (inRange m n) (g <$> l) = true).
  { apply inRange_ok. intros t Ht. apply elem_of_list_fmap in Ht as ([[i j] v] & -> & Ht). apply Hin, W in Ht. cbn in *. lia. }
  rewrite F. f_equal. apply map_eq. intros [i j].
  assert (Kg : forall t, key (g t) = fst t) by (intros [[a b] c]; unfold key; cbn; rewrite !Nat2Z.id; reflexivity).
  destruct (Ent !! (i, j)) as [v|] eqn:E.
  - rewrite (buildEnt_uniq minV (g <$> l) (i, j) (g (i, j, v))); [reflexivity| |apply Kg| |].
    + apply elem_of_list_fmap. exists (i, j, v). split; [reflexivity|]. apply Hin, E.
    + assert (N : NoDup l) by (rewrite X; apply NoDup_map_to_list). apply NoDup_fmap_2; [|exact N].
      intros [[a b] c] [[a' b'] c'] Q. cbn in Q. injection Q as Q1 Q2 ->. apply Nat2Z.inj in Q1, Q2. subst. reflexivity.
    + intros t' Ht' Hk. apply elem_of_list_fmap in Ht' as ([[a b] c] & -> & Hx). rewrite Kg in Hk. cbn in Hk. injection Hk as -> ->. apply Hin in Hx. rewrite E in Hx. injection Hx as ->. reflexivity.
  - destruct (buildEnt minV (g <$> l) !! (i, j)) as [v|] eqn:E'; [|reflexivity]. exfalso.
    destruct (proj1 (buildEnt_some minV (g <$> l) (i, j))) as (t & Ht & Hk); [rewrite E'; eauto|]. apply elem_of_list_fmap in Ht as ([[a b] c] & -> & Hx). rewrite Kg in Hk. cbn in Hk. injection Hk as -> ->.
    apply Hin in Hx. congruence.
Qed.
(** avoid_iso leaves the value given at the place given, and nothing else changes. *)
Theorem C66_avoid_iso : forall V (zero : V) (A : gm V) x i j, i < gm_rows A -> j < gm_cols A ->
  let A' := avoidIso zero A x i j in gm_rows A' = gm_rows A /\ gm_cols A' = gm_cols A /\ gm_ent A' !! (i, j) = Some x /\
  (forall q, q <> (i, j) -> gm_ent A' !! q = gm_ent A !! q) /\ (gm_ent A !! (i, j) = Some x -> A' = A).
Proof.
  intros V zero A x i j Hi Hj A'. unfold A', avoidIso, setElement. assert (E : (i <? gm_rows A) && (j <? gm_cols A) = true) by (apply andb_true_iff; split; apply Nat.ltb_lt; assumption).
  rewrite E. cbn [gm_rows gm_cols gm_ent]. rewrite E. cbn [gm_rows gm_cols gm_ent]. split; [reflexivity|]. split; [reflexivity|]. split; [apply lookup_insert|]. split.
  - intros q Hq. rewrite !lookup_insert_ne by congruence. reflexivity.
  - intros H. destruct A as [m n Ent]. cbn in *. f_equal. rewrite insert_insert. apply insert_id, H.
Qed.
Print Assumptions C66_read_directed.
Print Assumptions C66_read_undirected.
Print Assumptions C66_sort.
Print Assumptions C66_sort_wide_refuted.
Print Assumptions C66_sort_tall_refuted.
Print Assumptions C66_lowtri.
Print Assumptions C66_convert.
Print Assumptions C66_avoid_iso.

(** ** Further findings *)
(** One entry with an index outside the sizes (the reader does not check them), and the graph has no edges at all, without a word. *)
Theorem C66_index_refuted : forall V (minV plusV : V -> V -> V) ofInt rand sy imax f m n its r c v, readTriples ofInt rand true imax f = Ok (m, n, its) -> (r, c, v) ∈ its ->
  (r < 0 \/ Z.of_nat m <= r \/ c < 0 \/ Z.of_nat n <= c)%Z -> readGrbMtx minV plusV ofInt true sy rand imax f = Ok (mkGm m n ∅).
Proof.
  intros V minV plusV ofInt rand sy imax f m n its r c v E Hin Hout. unfold readGrbMtx. rewrite E, bind_Ok. cbn beta iota.
  assert (F : forallb (inRange m n) its = false).
  { destruct (forallb (inRange m n) its) eqn:F; [|reflexivity]. pose proof (proj1 (inRange_ok _ _ _) F _ Hin) as R. cbn in R. lia. }
  unfold grbBuild. rewrite F. destruct sy; [|reflexivity]. f_equal. unfold grbSymm. cbn [gm_rows gm_cols gm_ent]. destruct (m =? n); [|reflexivity]. f_equal.
  apply map_eq. intros [i j]. rewrite lookup_union_with, transEnt_lookup, !lookup_empty. reflexivity.
Qed.
Print Assumptions C66_index_refuted.
(** A matrix that is not square: it is not symmetrized, and its lower triangle has no entries. *)
Theorem C66_rectangular_refuted : forall V (plusV : V -> V -> V) (A : gm V), gm_rows A <> gm_cols A -> grbSymm plusV A = A /\ getLowtri A = mkGm (gm_rows A) (gm_rows A) ∅.
Proof.
  intros V plusV A H. unfold grbSymm, getLowtri. rewrite (proj2 (Nat.eqb_neq _ _) H), (proj2 (Nat.eqb_neq (gm_cols A) (gm_rows A))) by congruence. auto.
Qed.
Print Assumptions C66_rectangular_refuted.

(** ** Examples *)
(** A triangle 1-2-3, each edge once, a pendant edge 4-3 twice, a loop at 4. *)
Definition exG : mmfile := mkMM Pattern SymNo [txt " made by hand"] 4 4 [(2, 1, 1%Z, []); (3, 2, 1%Z, []); (1, 3, 1%Z, []); (4, 3, 1%Z, []); (3, 4, 1%Z, []); (4, 4, 1%Z, [])].
Lemma exG_wf : mm_wf exG.
Proof.
  unfold mm_wf. split; [|split; [|split; [|split; [|split]]]].
  - apply Forall_cons. split; [|apply Forall_nil; exact I]. split; [|split; [|split]].
    1,2: vm_compute; intros H; repeat (apply elem_of_cons in H as [H|H]; [discriminate H|]); inversion H.
    + apply Nat.leb_le. vm_compute. reflexivity.
    + rewrite <- IoProofs.strstr_ok. vm_compute. discriminate.
  - apply Forall_forall. intros l Hl. apply Nat.leb_le. revert l Hl. rewrite <- Forall_forall.
    cbn [exG mm_entries mm_field fmap list_fmap]. repeat (apply Forall_cons; split; [vm_compute; reflexivity|]). apply Forall_nil; exact I.
  - vm_compute. discriminate.
  - vm_compute. discriminate.
  - vm_compute. discriminate.
  - cbn [exG mm_entries mm_rows mm_cols]. repeat (apply Forall_cons; split; [split; [lia|split; [lia|split; [vm_compute; discriminate|left; reflexivity]]]|]).
    apply Forall_nil; exact I.
Qed.
Lemma exG_means : means exG = [(1, 0, 1%Z); (2, 1, 1%Z); (0, 2, 1%Z); (3, 2, 1%Z); (2, 3, 1%Z); (3, 3, 1%Z)].
Proof. vm_compute. reflexivity. Qed.
Definition exSrt : list (nat * nat) -> list (nat * nat) := merge_sort (fun a b => ~ pair_lt a b).
Lemma exSrt_ok : sort_greater exSrt.
Proof.
  intros l. split; [apply merge_sort_Permutation|]. apply StronglySorted_merge_sort.
  - intros a b c. unfold pair_lt. lia.
  - intros a b. unfold pair_lt. lia.
Qed.
Definition exText : text := txt "%%MatrixMarket matrix coordinate pattern general
% made by hand
4 4 6
2 1
3 2
1 3
4 3
3 4
4 4".
Lemma exG_text : file_text exG exText.
Proof. right. split; [discriminate|]. vm_compute. reflexivity. Qed.
Lemma exG_arc i j : file_arc exG i j <-> (i, j) ∈ [(1, 0); (2, 1); (0, 2); (3, 2); (2, 3)].
Proof.
  unfold file_arc, file_entry. rewrite exG_means. split.
  - intros (Hne & v & H). repeat (apply elem_of_cons in H as [H|H]; [injection H as -> -> ->; try congruence; repeat (left || right)|]); inversion H.
  - intros H. repeat (apply elem_of_cons in H as [H|H]; [injection H as -> ->; split; [lia|]; exists 1%Z; repeat (left || right)|]). inversion H.
Qed.
Lemma exG_triangles : triangles (file_edge exG) [(0, 1, 2)].
Proof.
  split; [apply NoDup_singleton|]. intros a b c. unfold file_edge. rewrite !exG_arc, elem_of_list_singleton. split.
  - intros E. injection E as -> -> ->. split; [lia|]. split; [lia|]. split; [|split]; [right|right|left]; repeat (left || right).
  - intros (H1 & H2 & H3 & H4 & H5). rewrite !elem_of_cons, !elem_of_nil in H3, H4, H5.
    repeat destruct H3 as [H3|H3]; try contradiction; simplify_eq; try lia;
    repeat destruct H4 as [H4|H4]; try contradiction; simplify_eq; try lia;
    repeat destruct H5 as [H5|H5]; try contradiction; simplify_eq; try lia; reflexivity.
Qed.
(** From this text: the entries read, the matrix in order of degree, and one triangle; the 3-truss is the triangle. *)
Example C66_example : exists A A', readGrbMtx Z.min Z.add id true true None intmax (Some exText) = Ok A /\ gm_rows A = 4 /\ gm_cols A = 4 /\
  gm_ent A = list_to_map [((0, 1), 1%Z); ((1, 0), 1%Z); ((1, 2), 1%Z); ((2, 1), 1%Z); ((0, 2), 1%Z); ((2, 0), 1%Z); ((2, 3), 2%Z); ((3, 2), 2%Z)] /\
  sortByDegree Z.min exSrt (map_to_list (gm_ent A)) A = Ok A' /\
  gm_ent A' = list_to_map [((0, 1), 1%Z); ((1, 0), 1%Z); ((1, 2), 1%Z); ((2, 1), 1%Z); ((0, 2), 1%Z); ((2, 0), 1%Z); ((0, 3), 2%Z); ((3, 0), 2%Z)].
Proof.
  eexists _, _. split; [vm_compute; reflexivity|]. split; [reflexivity|]. split; [reflexivity|]. split; [eapply bool_decide_unpack; vm_compute; exact I|].
  split; [vm_compute; reflexivity|]. eapply bool_decide_unpack. vm_compute. exact I.
Qed.
Example C66_triangles_example : mm_wf exG /\ file_text exG exText /\ sort_greater exSrt /\ libraryCall (mm_rows exG) exCall /\ triangles (file_edge exG) [(0, 1, 2)] /\
  exists A A' L C, readGrbMtx Z.min Z.add id true true None intmax (Some exText) = Ok A /\ sortByDegree Z.min exSrt (map_to_list (gm_ent A)) A = Ok A' /\
    repr (getLowtri A') L /\ exCall L C /\ reduceSum C = 1%Z.
Proof.
  split; [exact exG_wf|]. split; [exact exG_text|]. split; [exact exSrt_ok|]. assert (HL : libraryCall (mm_rows exG) exCall) by (apply exCall_lib; cbn; lia). split; [exact HL|].
  split; [exact exG_triangles|].
  destruct (C66_triangles Z.min Z.add id None intmax exG exText exSrt exCall ltac:(lia) (mm_wf_wf0 _ exG_wf) eq_refl ltac:(cbn; lia) exG_text exSrt_ok HL) as (A & EA & H).
  destruct (H (map_to_list (gm_ent A)) (Permutation_refl _)) as (A' & ES & (L & HR) & Hall). destruct (Hall L HR) as [(C & HC) Hc].
  exists A, A', L, C. split; [exact EA|]. split; [exact ES|]. split; [exact HR|]. split; [exact HC|]. rewrite (Hc C _ HC exG_triangles). reflexivity.
Qed.
Example C66_ktruss_example : exists A T R st, readGrbMtx Z.min Z.add id true true None intmax (Some exText) = Ok A /\ repr A T /\ kloop exCall 3 T (nnz T) R st /\ ~ edge R 2 3.
Proof.
  assert (HL : libraryCall (mm_rows exG) exCall) by (apply exCall_lib; cbn; lia).
  destruct (C66_ktruss Z.min Z.add id None intmax exG exText 3 exCall ltac:(lia) (mm_wf_wf0 _ exG_wf) eq_refl ltac:(cbn; lia) exG_text ltac:(lia) HL) as (A & EA & (T & HT) & H).
  destruct (H T HT) as [(R & st & HR) Hall]. destruct (Hall R st HR) as [(Hsub & Htr & _) _]. exists A, T, R, st. split; [exact EA|]. split; [exact HT|]. split; [exact HR|].
  intros E. destruct (Htr 2 3 E) as ([|w ws] & _ & Hlen & Hw); [discriminate|]. destruct (Hw w ltac:(left)) as [H1 H2]. apply Hsub in H1, H2. unfold file_edge in H1, H2. rewrite !exG_arc in H1, H2.
  rewrite !elem_of_cons, !elem_of_nil in H1, H2. 
  repeat destruct H1 as [H1|H1]; try contradiction; simplify_eq;
  repeat destruct H2 as [H2|H2]; try contradiction; simplify_eq.
Qed.
Definition exMin (x y : Qc) : Qc := if Qclt_le_dec x y then x else y.
Example C66_bc_example : exists A T rounds delta, readGrbMtx exMin Qcplus Qc_of_Z true false None intmax (Some exText) = Ok A /\ repr A T /\
  bcRun (yields2p (msaAlgC fSecond Qcplus true true 8)) (yields2p (msaAlg fSecond Qcplus true 8)) T [0; 3] rounds delta.
Proof.
  destruct (C66_bc exMin Qcplus Qc_of_Z None intmax exG exText [0; 3] (yields2p (msaAlg fSecond Qcplus true 8)) (yields2p (msaAlgC fSecond Qcplus true true 8)) ltac:(lia) exG_wf eq_refl exG_text ltac:(cbn; lia)) as (A & EA & (T & HT) & H).
  - cbn. repeat constructor; lia.
  - apply bc_msa2; [reflexivity|]. vm_compute. reflexivity.
  - destruct (H T HT) as [(rounds & delta & HR) _]. exists A, T, rounds, delta. auto.
Qed.
Example C66_convert_example : let A := mkGm 2 3 (list_to_map [((0, 2), 5%Z); ((1, 0), 7%Z)]) in gm_wf A /\ extracted A [((1, 0), 7%Z); ((0, 2), 5%Z)].
Proof.
  split.
  - intros i j v H. cbn [gm_ent] in H. apply (elem_of_list_to_map_2) in H. repeat (apply elem_of_cons in H as [H|H]; [injection H as -> -> ->; cbn; lia|]). inversion H.
  - vm_compute. first [reflexivity|apply Permutation_swap].
Qed.
Example C66_avoid_iso_example : gm_ent (avoidIso 0%Z (mkGm 2 2 ∅) 1%Z 1 0) = {[ (1, 0) := 1%Z ]} /\ avoidIso 0%Z (mkGm 2 2 ∅) 1%Z 2 0 = mkGm 2 2 ∅.
Proof. split; [eapply bool_decide_unpack; vm_compute; exact I|vm_compute; reflexivity]. Qed.
(** The findings on concrete cases. *)
Example C66_index_example : readGrbMtx Z.min Z.add id true true None intmax (Some (txt "%%MatrixMarket matrix coordinate pattern general
3 3 3
2 1
3 2
0 3
")) = Ok (mkGm 3 3 ∅).
Proof. eapply (C66_index_refuted _ _ _ _ _ _ _ _ _ _ _ (-1)%Z); [vm_compute; reflexivity|do 2 right; left|lia]. Qed.
Example C66_sort_example : sortByDegree Z.min exSrt [((0, 1), 1%Z)] (mkGm 1 2 {[ (0, 1) := 1%Z ]}) = Err OutOfBounds /\
  sortByDegree Z.min exSrt [((1, 0), 1%Z); ((2, 0), 1%Z)] (mkGm 3 2 (list_to_map [((1, 0), 1%Z); ((2, 0), 1%Z)])) = Ok (mkGm 3 2 ∅).
Proof. split; vm_compute; reflexivity. Qed.
