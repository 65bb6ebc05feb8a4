(** The matrices of the files and the products of MaskedAllSpGEMM.cpp. *)
From Coq Require Import NArith ZArith Ascii String.
From stdpp Require Import numbers list_numbers sorting.
From Verif Require Import BaseProofs WorkProofs Assemble ConcProofs MatSpec ConvProofs PropReport IoSpec MainSpec AllMainSpec.
From Verif Require Import Base Spec.
Local Open Scope nat_scope.

(** ** Lists *)
Lemma mjoin_perm {X Y} (f : X -> list Y) l l' : l ≡ₚ l' -> mjoin (f <$> l) ≡ₚ mjoin (f <$> l').
Proof.
  induction 1 as [|x l l' H IH|x y l|l l' l'' H1 IH1 H2 IH2]; rewrite ?fmap_cons, ?mjoin_cons; [reflexivity|rewrite IH; reflexivity| |etransitivity; eassumption].
  rewrite !app_assoc. apply Permutation_app_tail, Permutation_app_comm.
Qed.
Lemma mjoin_ext_perm {X Y} (f g : X -> list Y) l : (forall x, x ∈ l -> f x ≡ₚ g x) -> mjoin (f <$> l) ≡ₚ mjoin (g <$> l).
Proof.
  induction l as [|x l IH]; intros H; [reflexivity|]. rewrite !fmap_cons, !mjoin_cons. rewrite (H x) by left. rewrite IH; [reflexivity|]. intros y Hy. apply H. right. exact Hy.
Qed.
Lemma mjoin_nil {X Y} (f : X -> list Y) l : (forall x, x ∈ l -> f x = []) -> mjoin (f <$> l) = [].
Proof. induction l as [|x l IH]; intros H; [reflexivity|]. rewrite fmap_cons, mjoin_cons, (H x) by left. rewrite IH; [reflexivity|]. intros y Hy. apply H. right. exact Hy. Qed.
Lemma pick_block {Y} (g : nat -> list Y) i n : i < n -> (forall i', i' <> i -> g i' = []) -> mjoin (g <$> seq 0 n) = g i.
Proof.
  intros Hi Hg. replace n with (i + S (n - i - 1)) by lia. rewrite seq_app, fmap_app. cbn [seq]. rewrite fmap_cons, ConcProofs.mjoin_app. change (mjoin (?x :: ?l)) with (x ++ mjoin l).
  rewrite (mjoin_nil g (seq 0 i)) by (intros x Hx; apply elem_of_seq in Hx; apply Hg; lia).
  rewrite (mjoin_nil g (seq _ _)) by (intros x Hx; apply elem_of_seq in Hx; apply Hg; lia). rewrite app_nil_r. reflexivity.
Qed.
Lemma mjoin_mjoin {X Y} (f : X -> list Y) (ll : list (list X)) : mjoin (f <$> mjoin ll) = mjoin ((fun l => mjoin (f <$> l)) <$> ll).
Proof. induction ll as [|l ll IH]; [reflexivity|]. rewrite fmap_cons, !mjoin_cons, fmap_app, ConcProofs.mjoin_app, IH. reflexivity. Qed.
Lemma filter_mjoin {X} (P : X -> Prop) `{!forall x, Decision (P x)} (ll : list (list X)) : filter P (mjoin ll) = mjoin (filter P <$> ll).
Proof. induction ll as [|l ll IH]; [reflexivity|]. rewrite fmap_cons, !mjoin_cons, filter_app, IH. reflexivity. Qed.
Lemma filter_fmap_in {X Y} (g : Y -> X) (P : X -> Prop) `{!forall x, Decision (P x)} (l : list Y) : filter P (g <$> l) = g <$> filter (fun y => P (g y)) l.
Proof.
  induction l as [|y l IH]; [reflexivity|]. rewrite fmap_cons, !filter_cons. destruct (decide (P (g y))); [rewrite fmap_cons|]; rewrite IH; reflexivity.
Qed.
Lemma filter_prod {X Y Z'} (h : X * Y -> Z') (P : X * Y -> Prop) `{!forall x, Decision (P x)} (l : list X) (l' : list Y) :
  h <$> filter P (list_prod l l') = mjoin ((fun a => (fun u => h (a, u)) <$> filter (fun u => P (a, u)) l') <$> l).
Proof.
  induction l as [|a l IH]; [reflexivity|]. cbn [list_prod]. rewrite filter_app, fmap_app, fmap_cons, mjoin_cons, IH. f_equal.
  change (map (fun y => (a, y)) l') with ((fun y => (a, y)) <$> l'). rewrite filter_fmap_in, <- list_fmap_compose. reflexivity.
Qed.

(** An entry of a file with its value in the matrix. *)
Definition conv {V} (ofInt : Z -> V) (e : nat * nat * Z) : nat * nat * V := (fst e, ofInt (snd e)).
Section Gen.
Context {V : Type}.

Lemma triplesV_elem (X : csr V) i j v : (i, j, v) ∈ triples X <-> i < rows X /\ (j, v) ∈ row_entries X i.
Proof.
  unfold triples. rewrite elem_of_list_join. split.
  - intros (l & H1 & H2). apply elem_of_list_fmap in H2 as (i' & -> & H2). apply elem_of_list_fmap in H1 as ([j' v'] & E & H1). apply elem_of_seq in H2.
    cbn [fst snd] in E. injection E as -> -> ->. split; [lia|exact H1].
  - intros [H1 H2]. eexists. split; [|apply elem_of_list_fmap; exists i; split; [reflexivity|apply elem_of_seq; lia]]. apply elem_of_list_fmap. exists (j, v). auto.
Qed.
Lemma triplesV_row (X : csr V) i : i < rows X -> filter (fun e => fst (fst e) = i) (triples X) = (fun e => (i, fst e, snd e)) <$> row_entries X i.
Proof.
  intros Hi. unfold triples. rewrite filter_mjoin, <- list_fmap_compose. unfold compose. rewrite (pick_block (fun x => filter (fun e => fst (fst e) = i) ((fun e => (x, fst e, snd e)) <$> row_entries X x)) i); [|exact Hi|].
  - rewrite filter_fmap_in. f_equal. induction (row_entries X i) as [|e l IH]; [reflexivity|]; rewrite filter_cons_True by reflexivity; rewrite IH; reflexivity.
  - intros i' Hne. rewrite filter_fmap_in. induction (row_entries X i') as [|e l IH]; [reflexivity|]. rewrite filter_cons_False by (cbn; congruence). exact IH.
Qed.
Lemma triplesV_pos (X : csr V) i j : (i, j) ∈ fst <$> triples X <-> i < rows X /\ j ∈ row_cols X i.
Proof.
  rewrite elem_of_list_fmap. unfold row_cols. split.
  - intros ([[i' j'] v] & [= <- <-] & H). apply triplesV_elem in H as [H1 H2]. split; [exact H1|]. apply elem_of_list_fmap. exists (j, v). auto.
  - intros [H1 H2]. apply elem_of_list_fmap in H2 as ([j' v] & E & H2). cbn [fst] in E. subst j'. exists (i, j, v). split; [reflexivity|]. apply triplesV_elem. auto.
Qed.
Lemma rowsV_NoDup (X : csr V) : (forall i, i < rows X -> NoDup (row_cols X i)) -> NoDup (fst <$> triples X).
Proof.
  intros H. unfold triples. rewrite mjoin_fmap, <- list_fmap_compose. assert (G : forall n a, (forall i, a <= i < a + n -> NoDup (row_cols X i)) ->
    NoDup (mjoin ((fmap fst ∘ (fun i : nat => (fun e : nat * V => (i, fst e, snd e)) <$> row_entries X i)) <$> seq a n))); [|apply G; intros; apply H; lia].
  clear H. induction n as [|n IH]; intros a H; [constructor|]. cbn [seq]. rewrite fmap_cons, mjoin_cons. apply NoDup_app. unfold compose at 1 2. rewrite <- !list_fmap_compose. split; [|split].
  - specialize (H a ltac:(lia)). unfold row_cols in H. apply (NoDup_fmap_2 (pair a)) in H. rewrite <- list_fmap_compose in H. exact H.
  - intros x Hx Hx'. apply elem_of_list_fmap in Hx as (e & -> & _). apply elem_of_list_join in Hx' as (l & Hl & Hl'). apply elem_of_list_fmap in Hl' as (i' & -> & Hi'). apply elem_of_seq in Hi'.
    unfold compose in Hl. rewrite <- list_fmap_compose in Hl. apply elem_of_list_fmap in Hl as (e' & E & _). cbn in E. injection E as E _. lia.
  - apply IH. intros i Hi. apply H. lia.
Qed.
Lemma rowsV_NoDup_inv (X : csr V) : NoDup (fst <$> triples X) -> distinct_rows X.
Proof.
  intros Hn i Hi.
  assert (NoDup (fst <$> filter (fun e => fst (fst e) = i) (triples X))) as H.
  { revert Hn. generalize (triples X). induction l as [|x l IH]; intros Hn; [constructor|]. rewrite fmap_cons in Hn. apply NoDup_cons in Hn as [H1 H2]. rewrite filter_cons. destruct (decide _); [|auto].
    rewrite fmap_cons. apply NoDup_cons. split; [|auto]. intros Hx. apply H1. apply elem_of_list_fmap in Hx as (y & E & Hy). apply elem_of_list_filter in Hy as [_ Hy]. apply elem_of_list_fmap. eauto. }
  rewrite triplesV_row in H by exact Hi. rewrite <- list_fmap_compose in H. apply (NoDup_fmap_1 (pair i)). unfold row_cols. rewrite <- list_fmap_compose. exact H.
Qed.
Lemma triplesV_length (X : csr V) : wf X -> length (fst <$> triples X) = nnz X.
Proof.
  intros HX. rewrite fmap_length. unfold triples. pose proof (wf_last X HX) as HL. revert HL. generalize (nnz X). generalize (le_n (rows X)). generalize (rows X) at 1 3 4. induction n as [|n IH]; intros Hn c Hc.
  - rewrite (wf_first X HX) in Hc. injection Hc as <-. reflexivity.
  - rewrite seq_S, fmap_app, ConcProofs.mjoin_app, app_length. destruct (row_bounds_wf X n HX ltac:(lia)) as (b & e & Hb & He & Hle & _). rewrite (IH ltac:(lia) b Hb). cbn [fmap list_fmap mjoin list_join app Nat.add]. rewrite app_nil_r, fmap_length.
    rewrite (row_entries_length X n b e HX ltac:(lia) Hb He). replace (S n) with (n + 1) in Hc by lia. rewrite He in Hc. injection Hc as <-. lia.
Qed.

End Gen.

(** ** Products *)
Section Mat.
Context {V : Type} (mul : V -> V -> V) (ofInt : Z -> V).
Local Notation conv := (conv ofInt).
Context (A B : csr V) (EA EB : list (nat * nat * Z)).
Context (HA : wf A) (HB : wf B) (Hin : cols A = rows B) (PA : conv <$> EA ≡ₚ triples A) (PB : conv <$> EB ≡ₚ triples B).

Definition contrib (i j : nat) (TB : list (nat * nat * V)) (a : nat * nat * V) : list V :=
  (fun u => mul (snd a) (snd u)) <$> filter (fun u => fst (fst a) = i /\ snd (fst a) = fst (fst u) /\ snd (fst u) = j) TB.
Lemma products_contrib i j : i < rows A -> products mul (row_entries A i) (row_entries B) j = mjoin (contrib i j (triples B) <$> triples A).
Proof.
  intros Hi. unfold triples at 2. rewrite mjoin_mjoin, <- list_fmap_compose. unfold compose.
  rewrite (pick_block (fun x => mjoin (contrib i j (triples B) <$> ((fun e => (x, fst e, snd e)) <$> row_entries A x))) i); [|exact Hi|].
  - rewrite <- list_fmap_compose. unfold products. assert (G : forall l, (forall ka, ka ∈ l -> fst ka < rows B) ->
      mjoin ((fun ka : nat * V => (fun cb => mul (snd ka) (snd cb)) <$> filter (fun cb => fst cb = j) (row_entries B (fst ka))) <$> l) =
      mjoin ((contrib i j (triples B) ∘ (fun e : nat * V => (i, fst e, snd e))) <$> l)).
    { induction l as [|[k a] l IH]; intros Hl; [reflexivity|]. rewrite !fmap_cons, !mjoin_cons. rewrite IH by (intros; apply Hl; right; assumption). f_equal.
      specialize (Hl (k, a) ltac:(left)). cbn [fst snd] in *. unfold compose, contrib. cbn [fst snd].
      replace (filter (fun u : nat * nat * V => i = i /\ k = fst (fst u) /\ snd (fst u) = j) (triples B)) with (filter (fun u : nat * nat * V => snd (fst u) = j) (filter (fun u : nat * nat * V => fst (fst u) = k) (triples B))).
      - rewrite triplesV_row by exact Hl. rewrite filter_fmap_in, <- list_fmap_compose. reflexivity.
      - rewrite list_filter_filter. apply list_filter_iff. intros u. intuition congruence. }
    apply G. intros [k a] Hka. rewrite <- Hin. apply (row_cols_range A i); [exact HA|]. apply elem_of_list_fmap. exists (k, a). auto.
  - intros i' Hne. apply mjoin_nil. intros e He. apply elem_of_list_fmap in He as (y & -> & _). unfold contrib. cbn [fst snd].
    rewrite (list_filter_iff _ (fun _ => False)) by (intros; intuition congruence). clear. induction (triples B) as [|u l IH]; [reflexivity|]. rewrite filter_cons_False by tauto. exact IH.
Qed.
Lemma products_file i j : i < rows A -> products mul (row_entries A i) (row_entries B) j ≡ₚ products_at mul ofInt EA EB i j.
Proof.
  intros Hi. rewrite (products_contrib i j Hi). rewrite <- (mjoin_perm _ _ _ PA).
  rewrite (mjoin_ext_perm _ (contrib i j (conv <$> EB))); [|intros a _; unfold contrib; rewrite PB; reflexivity].
  unfold products_at, meeting. rewrite list_filter_filter, filter_prod, <- list_fmap_compose. apply mjoin_ext_perm. intros [[i' k] a] _. unfold compose, contrib, conv. cbn [fst snd].
  rewrite filter_fmap_in, <- list_fmap_compose. unfold compose. cbn [fst snd]. apply reflexive_eq. f_equal. apply list_filter_iff. intros [[k' j'] b]. unfold step_pos. cbn [fst snd].
  split; [intros (-> & -> & ->); auto|intros [[= -> ->] ->]; auto].
Qed.
Lemma products_some i j : products_at mul ofInt EA EB i j <> [] <-> (i, j) ∈ step_pos <$> meeting EA EB.
Proof.
  unfold products_at. rewrite elem_of_list_fmap. split.
  - intros H. destruct (filter (fun p => step_pos p = (i, j)) (meeting EA EB)) as [|p l] eqn:E; [contradiction|]. assert (Hp : p ∈ filter (fun p => step_pos p = (i, j)) (meeting EA EB)) by (rewrite E; left).
    apply elem_of_list_filter in Hp as [H1 H2]. exists p. auto.
  - intros (p & E & Hp) H. apply fmap_nil_inv in H. assert (Hq : p ∈ filter (fun p => step_pos p = (i, j)) (meeting EA EB)) by (apply elem_of_list_filter; auto). rewrite H in Hq. inversion Hq.
Qed.

(** ** Counts *)
Lemma list_prod_perm_l {X Y} (l l1 : list X) (l' : list Y) : l ≡ₚ l1 -> list_prod l l' ≡ₚ list_prod l1 l'.
Proof.
  induction 1 as [|x l l1 H IH|x y l|l l1 l2 H1 IH1 H2 IH2]; cbn [list_prod]; [reflexivity|rewrite IH; reflexivity| |etransitivity; eassumption].
  rewrite !app_assoc. apply Permutation_app_tail, Permutation_app_comm.
Qed.
Lemma list_prod_perm_r {X Y} (l : list X) (l' l1 : list Y) : l' ≡ₚ l1 -> list_prod l l' ≡ₚ list_prod l l1.
Proof. intros H. induction l as [|x l IH]; cbn [list_prod]; [reflexivity|]. rewrite IH, H. reflexivity. Qed.
Lemma list_prod_conv (l l' : list (nat * nat * Z)) : list_prod (conv <$> l) (conv <$> l') = (fun p => (conv (fst p), conv (snd p))) <$> list_prod l l'.
Proof.
  induction l as [|x l IH]; [reflexivity|]. rewrite fmap_cons. cbn [list_prod]. rewrite IH, fmap_app. f_equal.
  change (map (fun y => (conv x, y)) (conv <$> l')) with ((fun y => (conv x, y)) <$> (conv <$> l')). change (map (fun y => (x, y)) l') with ((fun y => (x, y)) <$> l').
  rewrite <- !list_fmap_compose. reflexivity.
Qed.
Lemma mult_file (TA TB : list (nat * nat * V)) E E' : conv <$> E ≡ₚ TA -> conv <$> E' ≡ₚ TB -> mult_pairs TA TB = length (meeting E E').
Proof.
  intros P1 P2. unfold mult_pairs. rewrite <- (list_prod_perm_l _ _ TB P1), <- (list_prod_perm_r _ _ _ P2), list_prod_conv, filter_fmap_in, fmap_length. reflexivity.
Qed.
Lemma nprods_file i : i < rows A -> nprods A B i = products_in EA EB i.
Proof.
  intros Hi. unfold products_in, meeting. rewrite list_filter_filter.
  transitivity (length (meeting (filter (fun e => fst (fst e) = i) EA) EB)).
  - rewrite <- (mult_file ((fun e => (i, fst e, snd e)) <$> row_entries A i) (triples B)); [|rewrite <- (triplesV_row A i Hi), <- PA, filter_fmap_in; reflexivity|exact PB].
    rewrite mult_pairs_rows, <- list_fmap_compose. unfold nprods. apply sum_ext. intros [k v] Hk. cbn [fst snd compose]. unfold compose. cbn [fst snd]. symmetry. apply in_row_triples.
    rewrite <- Hin. apply (row_cols_range A i); [exact HA|]. apply elem_of_list_fmap. exists (k, v). auto.
  - unfold meeting. clear. induction EA as [|e l IH]; [reflexivity|]. rewrite filter_cons. cbn [list_prod]. rewrite filter_app, app_length, <- IH.
    change (map (fun y => (e, y)) EB) with ((fun y => (e, y)) <$> EB). rewrite filter_fmap_in, fmap_length. cbn [fst snd]. unfold epos. destruct (decide (fst (fst e) = i)) as [E|E].
    + cbn [list_prod]. rewrite filter_app, app_length. f_equal. change (map (fun y => (e, y)) EB) with ((fun y => (e, y)) <$> EB). rewrite filter_fmap_in, fmap_length. cbn [fst snd]. f_equal. apply list_filter_iff. intros u. tauto.
    + rewrite (list_filter_iff _ (fun _ => False) EB) by tauto. replace (length (filter (fun _ => False) EB)) with 0; [reflexivity|]. clear. induction EB as [|u l IH]; [reflexivity|]. rewrite filter_cons_False by tauto. exact IH.
Qed.
End Mat.
