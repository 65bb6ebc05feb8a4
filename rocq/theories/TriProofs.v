(** Triangle counting: the sum of the masked product of the strictly lower part. *)
From Coq Require Import ZArith.
From stdpp Require Import numbers list_numbers.
From Verif Require Import BaseProofs McaProofs DriverStatements Assemble GraphSpec GraphModel GraphProofs GraphCalls.
From Verif Require Import Base Spec.

Lemma low_ex (A : csr Z) : wf A -> exists L, lowTri A L.
Proof.
  intros Hw. exists (assemble (fun i => filter (fun e => fst e < i) (row_entries A i)) (rows A) (cols A)).
  split; [|split; [reflexivity|split; [reflexivity|]]].
  - apply assemble_wf. intros i c v Hi Hin. apply elem_of_list_filter in Hin as [_ Hin]. eapply row_entries_range; eauto.
  - intros i Hi. exact (assemble_row (fun i => filter (fun e => fst e < i) (row_entries A i)) (rows A) (cols A) i Hi).
Qed.

Lemma low_good n (A L : csr Z) : good n A -> lowTri A L -> good n L /\ forall i j, edge L i j <-> edge A i j /\ j < i.
Proof.
  intros (Hw & Hs & Hr & Hc) (HwL & HrL & HcL & Hrow).
  assert (Hcols : forall i, i < n -> row_cols L i = filter (fun j => j < i) (row_cols A i)).
  { intros i Hi. unfold row_cols. rewrite Hrow by lia. induction (row_entries A i) as [|e l IH]; [reflexivity|].
    rewrite fmap_cons, !filter_cons. destruct (decide (fst e < i)); [rewrite fmap_cons, IH; reflexivity|exact IH]. }
  split.
  - split; [exact HwL|]. split; [|split; congruence]. intros i Hi. rewrite Hcols by congruence. specialize (Hs i ltac:(congruence)).
    induction Hs as [|x l Hl IH Hf]; [constructor|]. rewrite filter_cons. destruct (decide _); [|exact IH]. constructor; [exact IH|].
    apply Forall_forall. intros y Hy. apply elem_of_list_filter in Hy as [_ Hy]. rewrite Forall_forall in Hf. auto.
  - intros i j. unfold edge. rewrite HrL. split.
    + intros [Hi Hj]. rewrite Hcols in Hj by lia. apply elem_of_list_filter in Hj as [H1 H2]. auto.
    + intros [[Hi Hj] Hlt]. split; [exact Hi|]. rewrite Hcols by lia. apply elem_of_list_filter. auto.
Qed.

(** ** Sums *)
Definition zsum (l : list Z) : Z := foldr Z.add 0%Z l.
Lemma zsum_app l l' : zsum (l ++ l') = (zsum l + zsum l')%Z.
Proof. induction l as [|x l IH]; simpl; [reflexivity|]. unfold zsum in *. rewrite IH. lia. Qed.

(** Triangles of row i: (j, w, i). *)
Definition tri_row (L : csr Z) (i : nat) : list (nat * nat * nat) :=
  mjoin ((fun j => (fun w => (j, w, i)) <$> filter (fun w => j ∈ row_cols L w) (row_cols L i)) <$> row_cols L i).
Definition tris (L : csr Z) : list (nat * nat * nat) := mjoin (tri_row L <$> seq 0 (rows L)).

Lemma tri_row_length L i : length (tri_row L i) = sum_list (cnt2 L L i <$> row_cols L i).
Proof.
  unfold tri_row. enough (E : forall l, length (mjoin ((fun j => (fun w => (j, w, i)) <$> filter (fun w => j ∈ row_cols L w) (row_cols L i)) <$> l)) =
    sum_list (cnt2 L L i <$> l)) by apply E.
  induction l as [|j l IH]; [reflexivity|]. rewrite !fmap_cons, mjoin_cons, app_length, fmap_length, IH. reflexivity.
Qed.
Lemma row_sum n L i : good n L -> i < n -> zsum (snd <$> spec_row fOne Z.add L L L i) = Z.of_nat (length (tri_row L i)).
Proof.
  intros HG Hi. rewrite spec_row_count by (intros w Hin; apply (good_nodup n); [exact HG|eapply (good_col n); eauto]). rewrite tri_row_length.
  induction (row_cols L i) as [|j l IH]; [reflexivity|]. rewrite filter_cons, (fmap_cons (cnt2 L L i)).
  change (sum_list (cnt2 L L i j :: (cnt2 L L i <$> l))) with (cnt2 L L i j + sum_list (cnt2 L L i <$> l)).
  rewrite Nat2Z.inj_add, <- IH. destruct (decide (cnt2 L L i j <> 0)) as [Hz|Hz].
  - rewrite !fmap_cons. reflexivity.
  - replace (cnt2 L L i j) with 0 by lia. reflexivity.
Qed.
Lemma rows_sum (f : nat -> list (nat * Z)) (g : nat -> list (nat * nat * nat)) l : (forall i, i ∈ l -> zsum (snd <$> f i) = Z.of_nat (length (g i))) ->
  zsum (snd <$> mjoin (f <$> l)) = Z.of_nat (length (mjoin (g <$> l))).
Proof.
  induction l as [|i l IH]; intros H; [reflexivity|]. rewrite !fmap_cons, !mjoin_cons, fmap_app, zsum_app, app_length, Nat2Z.inj_add.
  rewrite IH by (intros j Hj; apply H; right; exact Hj). rewrite H by left. reflexivity.
Qed.
Lemma sum_tris n L C : good n L -> isProduct L C -> reduceSum C = Z.of_nat (length (tris L)).
Proof.
  intros HG (Hw & Hr & Hc & Hrow). pose proof HG as (_ & _ & HrL & _). unfold reduceSum, tris. rewrite (wf_assemble C Hw). unfold assemble. cbn [values].
  unfold rowsOf. rewrite Nat.sub_0_r, Hr. apply rows_sum. intros i Hi. apply elem_of_seq in Hi. rewrite Hrow by lia. apply (row_sum n); [exact HG|lia].
Qed.

(** ** The list of triangles *)
Lemma NoDup_mjoin {X Y : Type} (f : X -> list Y) (l : list X) : NoDup l -> (forall x, x ∈ l -> NoDup (f x)) ->
  (forall x y z, x ∈ l -> y ∈ l -> z ∈ f x -> z ∈ f y -> x = y) -> NoDup (mjoin (f <$> l)).
Proof.
  induction l as [|x l IH]; intros Hl Hf Hd; [constructor|]. apply NoDup_cons in Hl as [Hx Hl]. rewrite fmap_cons, mjoin_cons. apply NoDup_app.
  split; [apply Hf; left|]. split.
  - intros z Hz Hz'. apply elem_of_list_join in Hz' as (l' & Hz' & Hl'). apply elem_of_list_fmap in Hl' as (y & -> & Hy).
    apply Hx. rewrite (Hd x y z); [exact Hy|left|right; exact Hy|exact Hz|exact Hz'].
  - apply IH; [exact Hl|intros y Hy; apply Hf; right; exact Hy|intros y y' z Hy Hy'; apply Hd; right; assumption].
Qed.
Lemma tris_elem n L a b c : good n L -> (a, b, c) ∈ tris L <-> edge L c a /\ edge L c b /\ edge L b a.
Proof.
  intros HG. pose proof HG as (_ & _ & HrL & _). unfold tris, tri_row. rewrite elem_of_list_join. split.
  - intros (l & Hl & Hin). apply elem_of_list_fmap in Hin as (i & -> & Hi). apply elem_of_seq in Hi.
    apply elem_of_list_join in Hl as (l & Hl & Hin). apply elem_of_list_fmap in Hin as (j & -> & Hj).
    apply elem_of_list_fmap in Hl as (w & E & Hw). injection E as -> -> ->. apply elem_of_list_filter in Hw as [Hw1 Hw2].
    unfold edge. split; [split; [lia|exact Hj]|]. split; [split; [lia|exact Hw2]|]. split; [|exact Hw1].
    rewrite HrL. eapply (good_col n); [exact HG| |exact Hw2]. lia.
  - intros ([Hc Ha] & [_ Hb] & [_ Hba]). eexists. split; [|apply elem_of_list_fmap; exists c; split; [reflexivity|apply elem_of_seq; lia]].
    apply elem_of_list_join. eexists. split; [|apply elem_of_list_fmap; exists a; split; [reflexivity|exact Ha]].
    apply elem_of_list_fmap. exists b. split; [reflexivity|]. apply elem_of_list_filter. auto.
Qed.
Lemma tris_nodup n L : good n L -> NoDup (tris L).
Proof.
  intros HG. pose proof HG as (_ & _ & HrL & _). unfold tris. apply NoDup_mjoin.
  - apply NoDup_seq.
  - intros i Hi. apply elem_of_seq in Hi. assert (Hnd : NoDup (row_cols L i)) by (apply (good_nodup n); [exact HG|lia]). unfold tri_row. apply NoDup_mjoin.
    + exact Hnd.
    + intros j Hj. apply NoDup_fmap; [intros w w' E; congruence|]. apply NoDup_filter, Hnd.
    + intros j j' z _ _ H1 H2. apply elem_of_list_fmap in H1 as (w & -> & _). apply elem_of_list_fmap in H2 as (w' & E & _). congruence.
  - intros i i' z _ _ H1 H2. unfold tri_row in *.
    apply elem_of_list_join in H1 as (l1 & H1 & Hl1). apply elem_of_list_fmap in Hl1 as (j1 & -> & _). apply elem_of_list_fmap in H1 as (w1 & -> & _).
    apply elem_of_list_join in H2 as (l2 & H2 & Hl2). apply elem_of_list_fmap in Hl2 as (j2 & -> & _). apply elem_of_list_fmap in H2 as (w2 & E & _). congruence.
Qed.

Lemma tri_count n A L C ts : good n A -> lowTri A L -> (forall i j, edge A i j -> edge A j i) -> isProduct L C ->
  NoDup ts -> (forall a b c, (a, b, c) ∈ ts <-> a < b /\ b < c /\ edge A a b /\ edge A b c /\ edge A a c) ->
  reduceSum C = Z.of_nat (length ts).
Proof.
  intros HA HL Hsym HP Hnd Hts. destruct (low_good n A L HA HL) as [HG He]. rewrite (sum_tris n L C HG HP). f_equal.
  apply Permutation_length, NoDup_Permutation; [apply (tris_nodup n), HG|exact Hnd|]. intros [[a b] c]. rewrite (tris_elem n L a b c HG), Hts, !He.
  split.
  - intros ([H1 H2] & [H3 H4] & [H5 H6]). auto 10.
  - intros (H1 & H2 & H3 & H4 & H5). split; [split; [auto|lia]|]. auto 10.
Qed.
