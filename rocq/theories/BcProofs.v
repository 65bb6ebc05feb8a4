(** Betweenness centrality: the two loops compute what they should. *)
From Coq Require Import Field QArith.Qcanon.
From stdpp Require Import numbers list_numbers sorting.
From Verif Require Import BaseProofs ConcProofs McaProofs Assemble DriverStatements GraphProofs BcWalks BcModel.
From Verif Require Import Base Spec.

(** ** Entries *)
Lemma findKey_None {V} j (l : list (nat * V)) : findKey j l = None <-> j ∉ fst <$> l.
Proof.
  induction l as [|[c v] l IH]; cbn [findKey]; [split; [intros _ H; inversion H|reflexivity]|]. rewrite fmap_cons, not_elem_of_cons. cbn [fst].
  destruct (decide (c = j)) as [->|Hne]; [split; [discriminate|intros []; contradiction]|]. rewrite IH. split; [intros H; split; [congruence|exact H]|intros [_ H]; exact H].
Qed.
Lemma findKey_Some {V} j v (l : list (nat * V)) : NoDup (fst <$> l) -> findKey j l = Some v <-> (j, v) ∈ l.
Proof.
  induction l as [|[c x] l IH]; intros Hn; cbn [findKey]; [split; [discriminate|intros H; inversion H]|]. rewrite fmap_cons in Hn. inversion Hn as [|? ? Hc Hn']; subst. cbn [fst] in Hc.
  rewrite elem_of_cons. destruct (decide (c = j)) as [->|Hne].
  - split; [intros [= ->]; left; reflexivity|]. intros [[= ->]|Hin]; [reflexivity|]. exfalso. apply Hc. apply elem_of_list_fmap. exists (j, v). auto.
  - rewrite IH by exact Hn'. split; [intros H; right; exact H|]. intros [[= -> ->]|H]; [contradiction|exact H].
Qed.
Lemma findKey_filter {V} j (l : list (nat * V)) : NoDup (fst <$> l) -> snd <$> filter (fun cb => fst cb = j) l = option_list (findKey j l).
Proof.
  induction l as [|[c x] l IH]; intros Hn; [reflexivity|]. rewrite fmap_cons in Hn. inversion Hn as [|? ? Hc Hn']; subst. cbn [fst] in Hc. cbn [findKey]. rewrite filter_cons. cbn [fst].
  destruct (decide (c = j)) as [->|Hne]; [|apply IH, Hn']. rewrite fmap_cons, IH by exact Hn'. rewrite (proj2 (findKey_None j l) Hc). reflexivity.
Qed.

Definition shaped (n m : nat) (C : csr Qc) : Prop := wf C /\ sorted_rows C /\ rows C = n /\ cols C = m.
Lemma holds_shaped n m C f : holds n m C f -> shaped n m C.
Proof. intros (H1 & H2 & H3 & H4 & _). split; auto. Qed.
Lemma shaped_nodup n m C i : shaped n m C -> i < n -> NoDup (fst <$> row_entries C i).
Proof. intros (_ & Hs & Hr & _) Hi. apply SSorted_NoDup, Hs. lia. Qed.
Lemma ent_Some n m C i j v : shaped n m C -> i < n -> ent C i j = Some v <-> (j, v) ∈ row_entries C i.
Proof. intros HC Hi. apply findKey_Some. eapply shaped_nodup; eauto. Qed.
Lemma ent_None {V} (C : csr V) i j : ent C i j = None <-> j ∉ row_cols C i.
Proof. apply findKey_None. Qed.
Lemma ent_range n m C i j v : shaped n m C -> ent C i j = Some v -> j < m.
Proof.
  intros (Hw & _ & _ & Hc) H. assert (j ∈ row_cols C i) by (destruct (decide (j ∈ row_cols C i)) as [|Hn]; [assumption|apply ent_None in Hn; congruence]).
  rewrite <- Hc. eapply row_cols_range; eauto.
Qed.
Lemma sorted_omap (g : nat -> option Qc) a m : StronglySorted lt (fst <$> omap (fun j => (fun v => (j, v)) <$> g j) (seq a m)) /\
  forall j v, (j, v) ∈ omap (fun j => (fun v => (j, v)) <$> g j) (seq a m) <-> a <= j < a + m /\ g j = Some v.
Proof.
  assert (Hel : forall a, forall j v, (j, v) ∈ omap (fun j => (fun v => (j, v)) <$> g j) (seq a m) <-> a <= j < a + m /\ g j = Some v).
  { intros a' j v. rewrite elem_of_list_omap. split.
    - intros (x & Hx & Hg). apply elem_of_seq in Hx. destruct (g x) as [w|] eqn:E; [|discriminate]. cbn in Hg. injection Hg as <- <-. auto.
    - intros [H1 H2]. exists j. split; [apply elem_of_seq; exact H1|]. rewrite H2. reflexivity. }
  split; [|apply Hel]. clear Hel. revert a. induction m as [|m IH]; intros a; [constructor|]. cbn [seq omap list_omap]. destruct (g a) as [w|]; cbn [fmap option_fmap option_map]; [|apply IH].
  rewrite fmap_cons. constructor; [apply IH|]. apply Forall_forall. intros x Hx. apply elem_of_list_fmap in Hx as ([j v] & -> & Hin). apply elem_of_list_omap in Hin as (y & Hy & Hg).
  apply elem_of_seq in Hy. destruct (g y); [|discriminate]. cbn in Hg. injection Hg as <- <-. cbn. lia.
Qed.
Lemma holds_ex n m f : exists C, holds n m C f.
Proof.
  set (R := fun i => omap (fun j => (fun v => (j, v)) <$> f i j) (seq 0 m)). exists (assemble R n m). split; [|split; [|split; [reflexivity|split; [reflexivity|]]]].
  - apply assemble_wf. intros i c v Hi Hin. apply (sorted_omap (f i)) in Hin. lia.
  - intros i Hi. cbn in Hi. unfold row_cols. rewrite assemble_row by exact Hi. apply (sorted_omap (f i)).
  - intros i j Hi Hj. unfold ent. rewrite assemble_row by exact Hi. destruct (sorted_omap (f i) 0 m) as [Hs He]. fold (R i) in Hs, He.
    destruct (f i j) as [v|] eqn:E; [apply findKey_Some; [apply SSorted_NoDup, Hs|]; apply He; split; [lia|exact E]|].
    apply findKey_None. intros Hin. apply elem_of_list_fmap in Hin as ([c v] & -> & Hin). apply He in Hin as [_ Hin]. cbn in E. congruence.
Qed.
Lemma holds_ext n m C f g : (forall i j, i < n -> j < m -> f i j = g i j) -> holds n m C f -> holds n m C g.
Proof. intros H (H1 & H2 & H3 & H4 & H5). repeat (split; [assumption|]). intros i j Hi Hj. rewrite <- H by assumption. apply H5; assumption. Qed.
Lemma nnz_zero n m C f : holds n m C f -> nnz C = 0 -> forall i j, i < n -> j < m -> f i j = None.
Proof.
  intros HC Hz i j Hi Hj. pose proof (holds_shaped _ _ _ _ HC) as HS. destruct HC as (Hw & _ & Hr & _ & He). rewrite <- He by assumption. apply ent_None. intros Hin.
  rewrite (nnz_rows C Hw) in Hz. assert (Hl : length (row_cols C i) = 0).
  { apply (sumN_0_inv (seq 0 (rows C)) (fun i => length (row_cols C i))); [exact Hz|apply elem_of_seq; lia]. }
  apply nil_length_inv in Hl. rewrite Hl in Hin. inversion Hin.
Qed.
Lemma nnz_nonzero n m C f : holds n m C f -> nnz C <> 0 -> exists i j, i < n /\ j < m /\ f i j <> None.
Proof.
  intros HC Hz. pose proof (holds_shaped _ _ _ _ HC) as HS. destruct HC as (Hw & _ & Hr & Hc & He).
  destruct (decide (Forall (fun i => length (row_cols C i) = 0) (seq 0 (rows C)))) as [Hf|Hf].
  - exfalso. apply Hz. rewrite (nnz_rows C Hw). apply (sumN_0 (seq 0 (rows C)) (fun i => length (row_cols C i))). rewrite Forall_forall in Hf. exact Hf.
  - apply not_Forall_Exists in Hf; [|intros ?; apply _]. apply Exists_exists in Hf as (i & Hi & Hl). cbn beta in Hl. apply elem_of_seq in Hi. destruct (row_cols C i) as [|j l] eqn:E; [exfalso; apply Hl; rewrite E; reflexivity|].
    assert (Hj : j ∈ row_cols C i) by (rewrite E; left). assert (j < m) by (rewrite <- Hc; eapply row_cols_range; eauto). exists i, j. split; [lia|]. split; [assumption|].
    rewrite <- He by (assumption || lia). intros Hn. apply ent_None in Hn. contradiction.
Qed.

(** ** Sums and products *)
Lemma fold_left_Qc l x : fold_left Qcplus l x = (x + sumQc l)%Qc.
Proof. revert x. induction l as [|y l IH]; intros x; [change (x = (x + 0)%Qc); ring|]. change (fold_left Qcplus l (x + y)%Qc = (x + (y + sumQc l))%Qc). rewrite IH. ring. Qed.
Lemma sum1_Qc l : sum1 Qcplus l = match l with [] => None | _ => Some (sumQc l) end.
Proof. destruct l as [|x l]; [reflexivity|]. cbn [sum1]. rewrite fold_left_Qc. reflexivity. Qed.
Lemma sumQc_omap (g : nat -> option Qc) l : sumQc (omap g l) = sumQ l (fun k => default 0%Qc (g k)).
Proof. induction l as [|x l IH]; [reflexivity|]. rewrite sumQ_cons, <- IH. cbn [omap list_omap]. destruct (g x); [reflexivity|]. change (sumQc (omap g l) = (0 + sumQc (omap g l))%Qc). ring. Qed.
Lemma sum1_none (g : nat -> option Qc) l : (forall k, k ∈ l -> g k = None) -> sum1 Qcplus (omap g l) = None.
Proof. intros H. assert (omap g l = []) as ->; [|reflexivity]. induction l as [|x l IH]; [reflexivity|]. cbn [omap list_omap]. rewrite H by left. apply IH. intros k Hk. apply H. right; exact Hk. Qed.
Lemma sum1_some (g : nat -> option Qc) l k x : k ∈ l -> g k = Some x -> sum1 Qcplus (omap g l) = Some (sumQ l (fun k => default 0%Qc (g k))).
Proof.
  intros Hk Hg. rewrite sum1_Qc, <- sumQc_omap. assert (Hx : x ∈ omap g l) by (apply elem_of_list_omap; eauto). destruct (omap g l); [inversion Hx|reflexivity].
Qed.

Lemma prods_second (B : csr Qc) n m j arow : shaped n m B -> (forall k a, (k, a) ∈ arow -> k < n) ->
  products fSecond arow (row_entries B) j = omap (fun k => ent B k j) (fst <$> arow).
Proof.
  intros HB. induction arow as [|[k a] arow IH]; intros Hk; [reflexivity|]. unfold products in *. rewrite !fmap_cons, mjoin_cons, IH by (intros; eapply Hk; right; eassumption).
  cbn [fst snd omap list_omap]. change (fun cb : nat * Qc => fSecond a (snd cb)) with (fun cb : nat * Qc => snd cb).
  assert (E : (fun cb : nat * Qc => snd cb) <$> filter (fun cb => fst cb = j) (row_entries B k) = option_list (ent B k j)).
  { apply findKey_filter. eapply shaped_nodup; [exact HB|]. eapply Hk. left. }
  rewrite E. destruct (ent B k j); reflexivity.
Qed.

Global Instance edge_dec {V} (A : csr V) i j : Decision (edge A i j).
Proof. unfold edge. apply _. Defined.
Definition eb {V} (A : csr V) (i j : nat) : bool := bool_decide (edge A i j).
Lemma eb_true {V} (A : csr V) i j : eb A i j = true <-> edge A i j.
Proof. unfold eb. apply bool_decide_eq_true. Qed.
Lemma eb_range n (A : csr Qc) : good n A -> forall u v, eb A u v = true -> u < n /\ v < n.
Proof. intros HA u v H. apply eb_true in H. eapply edge_lt; eauto. Qed.
Lemma row_cols_eb n (A : csr Qc) i : good n A -> i < n -> row_cols A i = filter (fun k => eb A i k = true) (seq 0 n).
Proof.
  intros HA Hi. pose proof HA as (Hw & Hs & Hr & Hc). assert (Hanti : AntiSymm eq lt) by (intros x y; lia). apply (StronglySorted_unique lt).
  - apply Hs. lia.
  - assert (Hseq : forall a m, StronglySorted lt (filter (fun k => eb A i k = true) (seq a m))).
    { intros a m. revert a. induction m as [|m IH]; intros a; [constructor|]. cbn [seq]. rewrite filter_cons. destruct (decide _); [|apply IH]. constructor; [apply IH|].
      apply Forall_forall. intros x Hx. apply elem_of_list_filter in Hx as [_ Hx]. apply elem_of_seq in Hx. lia. }
    apply Hseq.
  - apply NoDup_Permutation; [apply SSorted_NoDup, Hs; lia|apply NoDup_filter, NoDup_seq|]. intros x. rewrite elem_of_list_filter, elem_of_seq, eb_true. unfold edge. split.
    + intros Hx. split; [split; [lia|exact Hx]|]. pose proof (good_col n A i x HA Hi Hx). lia.
    + intros [[_ Hx] _]. exact Hx.
Qed.
Lemma omap_filter (P : nat -> bool) (g : nat -> option Qc) (l : list nat) : omap g (filter (fun k => P k = true) l) = omap (fun k => if P k then g k else None) l.
Proof.
  induction l as [|x l IH]; [reflexivity|]. rewrite filter_cons. destruct (P x) eqn:E.
  - rewrite decide_True by reflexivity. cbn [omap list_omap]. rewrite E, IH. reflexivity.
  - rewrite decide_False by discriminate. cbn [omap list_omap]. rewrite E. exact IH.
Qed.
(** Entry (i, j) of the product adds up the entries B(k, j) over the edges (i, k). *)
Lemma prod_ent n m (A B : csr Qc) i j : good n A -> shaped n m B -> i < n ->
  prod_entry fSecond Qcplus A B i j = sum1 Qcplus (omap (fun k => if eb A i k then ent B k j else None) (seq 0 n)).
Proof.
  intros HA HB Hi. unfold prod_entry, entry. rewrite (prods_second B n m j (row_entries A i) HB).
  - fold (row_cols A i). rewrite (row_cols_eb n A i HA Hi), omap_filter. reflexivity.
  - intros k a Hin. eapply (good_col n A i); [exact HA|exact Hi|]. apply elem_of_list_fmap. exists (k, a). auto.
Qed.

(** ** The product calls, by their results *)
Definition complCall (n s : nat) (mxmC : csr Qc -> csr Qc -> csr Qc -> csr Qc -> Prop) : Prop :=
  forall A B M, good n A -> shaped n s B -> shaped n s M -> (exists C, mxmC A B M C) /\
    forall C, mxmC A B M C -> product_matrix A B C (fun i l => is_compl_row fSecond Qcplus A B M i l /\ StronglySorted lt (fst <$> l)).
Definition plainCall (n s : nat) (mxmP : csr Qc -> csr Qc -> csr Qc -> csr Qc -> Prop) : Prop :=
  forall A B M, good n A -> shaped n s B -> shaped n s M -> (exists C, mxmP A B M C) /\
    forall C, mxmP A B M C -> product_matrix A B C (fun i l => l = spec_row fSecond Qcplus A B M i).

Lemma compl_holds n s A B M C : good n A -> shaped n s B -> shaped n s M ->
  product_matrix A B C (fun i l => is_compl_row fSecond Qcplus A B M i l /\ StronglySorted lt (fst <$> l)) ->
  holds n s C (fun i j => match ent M i j with Some _ => None | None => prod_entry fSecond Qcplus A B i j end).
Proof.
  intros HA HB HM (Hw & Hr & Hc & Hrow). pose proof HA as (_ & _ & HrA & _). pose proof HB as (_ & _ & _ & HcB). split; [exact Hw|]. split; [|split; [congruence|split; [congruence|]]].
  - intros i Hi. apply Hrow. lia.
  - intros i j Hi Hj. destruct (Hrow i ltac:(lia)) as [[Hn He] Hs].
    assert (Hent : forall v, ent C i j = Some v <-> j ∉ row_cols M i /\ prod_entry fSecond Qcplus A B i j = Some v) by (intros v; unfold ent; rewrite findKey_Some by exact Hn; apply He).
    destruct (ent M i j) as [x|] eqn:EM.
    + destruct (ent C i j) as [v|] eqn:EC; [|reflexivity]. destruct (proj1 (Hent v) eq_refl) as [Hno _]. apply ent_None in Hno. congruence.
    + apply ent_None in EM. destruct (prod_entry fSecond Qcplus A B i j) as [v|] eqn:EP; [apply Hent; auto|].
      destruct (ent C i j) as [v|] eqn:EC; [|reflexivity]. destruct (proj1 (Hent v) eq_refl) as [_ Hp]. congruence.
Qed.
Lemma plain_holds n s A B M C : good n A -> shaped n s B -> shaped n s M ->
  product_matrix A B C (fun i l => l = spec_row fSecond Qcplus A B M i) ->
  holds n s C (fun i j => match ent M i j with Some _ => prod_entry fSecond Qcplus A B i j | None => None end).
Proof.
  intros HA HB HM (Hw & Hr & Hc & Hrow). pose proof HA as (_ & _ & HrA & _). pose proof HB as (_ & _ & _ & HcB).
  assert (Hso : forall (g : nat -> option Qc) l, StronglySorted lt l -> StronglySorted lt (fst <$> omap (fun j => (fun v => (j, v)) <$> g j) l)).
  { intros g l Hl. induction Hl as [|x l Hl IH Hf]; [constructor|]. cbn [omap list_omap]. destruct (g x); cbn [fmap option_fmap option_map]; [|exact IH]. rewrite fmap_cons. constructor; [exact IH|].
    apply Forall_forall. intros y Hy. apply elem_of_list_fmap in Hy as ([c v] & -> & Hin). apply elem_of_list_omap in Hin as (z & Hz & Hg). destruct (g z); [|discriminate]. cbn in Hg. injection Hg as <- <-.
    rewrite Forall_forall in Hf. apply Hf, Hz. }
  assert (Hs : sorted_rows C). { intros i Hi. unfold row_cols. rewrite Hrow by lia. apply Hso. pose proof HM as (_ & HsM & HrM & _). apply HsM. lia. }
  split; [exact Hw|]. split; [exact Hs|]. split; [congruence|]. split; [congruence|]. intros i j Hi Hj.
  assert (Hent : forall v, ent C i j = Some v <-> j ∈ row_cols M i /\ prod_entry fSecond Qcplus A B i j = Some v).
  { intros v. unfold ent. rewrite findKey_Some by (apply SSorted_NoDup, Hs; lia). rewrite Hrow by lia. unfold spec_row, masked_row. rewrite elem_of_list_omap. split.
    - intros (x & Hx & Hg). unfold prod_entry. destruct (entry fSecond Qcplus (row_entries A i) (row_entries B) x) eqn:E; [|discriminate]. cbn in Hg. injection Hg as <- <-. auto.
    - intros [H1 H2]. exists j. split; [exact H1|]. unfold prod_entry in H2. rewrite H2. reflexivity. }
  destruct (ent M i j) as [x|] eqn:EM.
  - assert (Hin : j ∈ row_cols M i) by (destruct (decide (j ∈ row_cols M i)) as [|Hno]; [assumption|apply ent_None in Hno; congruence]).
    destruct (prod_entry fSecond Qcplus A B i j) as [v|] eqn:EP; [apply Hent; auto|]. destruct (ent C i j) as [v|] eqn:EC; [|reflexivity]. destruct (proj1 (Hent v) eq_refl) as [_ Hp]. congruence.
  - apply ent_None in EM. destruct (ent C i j) as [v|] eqn:EC; [|reflexivity]. destruct (proj1 (Hent v) eq_refl) as [Hin _]. contradiction.
Qed.

(** ** The loops *)
Section Run.
Context (mxmC mxmP : csr Qc -> csr Qc -> csr Qc -> csr Qc -> Prop) (n : nat) (srcs : list nat).
Notation s := (length srcs).
Context (HmC : complCall n s mxmC) (HmP : plainCall n s mxmP).
Context (A : csr Qc) (HA : good n A) (Hsrc : Forall (fun v => v < n) srcs).
Notation e := (eb A).
Notation He := (eb_range n A HA).
Notation dst := (dst n e).
Notation sig := (sig n e).
Notation dep := (dep n e).

Definition src (c : nat) : nat := default 0 (srcs !! c).
Lemma src_lt c : c < s -> src c < n.
Proof. intros Hc. unfold src. destruct (lookup_lt_is_Some_2 srcs c Hc) as [v Hv]. rewrite Hv. cbn. rewrite Forall_forall in Hsrc. apply Hsrc. eapply elem_of_list_lookup_2, Hv. Qed.

Definition Lev (m v c : nat) : option Qc := if decide (dst (src c) v = Some m) then Some (Qc_of_nat (sig (src c) v)) else None.
Definition Upto (m v c : nat) : option Qc :=
  match dst (src c) v with Some d => if decide (d <= m) then Some (Qc_of_nat (sig (src c) v)) else None | None => None end.

Lemma start_F F : holds n s F (buildF srcs) -> holds n s F (Lev 0) /\ holds n s F (Upto 0).
Proof.
  intros HF. assert (H : forall i j, i < n -> j < s -> (dst (src j) i = Some 0 <-> srcs !! j = Some i)).
  { intros i j Hi Hj. pose proof (src_lt j Hj) as Hl. split.
    - intros H. apply (dst_0 n e He) in H; [|exact Hl]. rewrite H. unfold src in *. destruct (lookup_lt_is_Some_2 srcs j Hj) as [v Hv]. rewrite Hv. reflexivity.
    - intros H. assert (src j = i) as <- by (unfold src; rewrite H; reflexivity). apply dst_self; [exact He|exact Hl]. }
  assert (H1 : forall i j, i < n -> j < s -> buildF srcs i j = Lev 0 i j).
  { intros i j Hi Hj. unfold buildF, Lev. destruct (decide (srcs !! j = Some i)) as [E|E].
    - rewrite decide_True by (apply H; assumption). assert (src j = i) as <- by (unfold src; rewrite E; reflexivity). rewrite (sig_self n e He) by (apply src_lt, Hj). f_equal. symmetry. exact Z2Qc_inj_1.
    - rewrite decide_False; [reflexivity|]. rewrite H by assumption. exact E. }
  split; (eapply holds_ext; [|exact HF]); [exact H1|]. intros i j Hi Hj. rewrite H1 by assumption. unfold Lev, Upto. destruct (dst (src j) i) as [d|]; [|reflexivity].
  destruct (decide (Some d = Some 0)) as [[= ->]|Hne]; [rewrite decide_True by lia; reflexivity|]. rewrite decide_False; [reflexivity|]. intros Hd. apply Hne. f_equal. lia.
Qed.

Lemma tr_good Atr : holds n n Atr (fun i j => ent A j i) -> good n Atr /\ forall i j, i < n -> j < n -> eb Atr i j = e j i.
Proof.
  intros (Hw & Hs & Hr & Hc & Hent). split; [split; [exact Hw|split; [exact Hs|split; [exact Hr|exact Hc]]]|]. intros i j Hi Hj. pose proof HA as (_ & _ & HrA & _).
  apply eq_true_iff_eq. rewrite !eb_true. unfold edge. specialize (Hent i j Hi Hj).
  assert (Hiff : j ∈ row_cols Atr i <-> i ∈ row_cols A j).
  { split; intros H; [destruct (decide (i ∈ row_cols A j)) as [|Hno]|destruct (decide (j ∈ row_cols Atr i)) as [|Hno]]; try assumption; exfalso; apply ent_None in Hno.
    - rewrite Hno in Hent. apply ent_None in Hent. contradiction.
    - rewrite Hno in Hent. symmetry in Hent. apply ent_None in Hent. contradiction. }
  rewrite Hiff. split; intros [_ H]; (split; [lia|exact H]).
Qed.

(** One frontier *)
Lemma front_step Atr m F N F' : holds n n Atr (fun i j => ent A j i) -> holds n s F (Lev m) -> holds n s N (Upto m) -> mxmC Atr F N F' ->
  holds n s F' (Lev (S m)).
Proof.
  intros HT HF HN Hm. destruct (tr_good Atr HT) as [HG Heb]. pose proof (holds_shaped _ _ _ _ HF) as SF. pose proof (holds_shaped _ _ _ _ HN) as SN.
  destruct (HmC Atr F N HG SF SN) as [_ Hp]. eapply holds_ext; [|apply (compl_holds n s Atr F N F' HG SF SN (Hp F' Hm))].
  intros v c Hv Hc. cbn beta. destruct HN as (_ & _ & _ & _ & EN). rewrite EN by assumption. destruct HF as (_ & _ & _ & _ & EF).
  pose proof (src_lt c Hc) as Hl. rewrite (prod_ent n s Atr F v c HG SF Hv). unfold Upto, Lev.
  assert (Hg : omap (fun k => if eb Atr v k then ent F k c else None) (seq 0 n) = omap (fun k => if e k v then Lev m k c else None) (seq 0 n)).
  { apply list_omap_ext. apply Forall2_same_length_lookup_2; [reflexivity|]. intros i x y Hx Hy. rewrite Hx in Hy. injection Hy as <-. apply lookup_seq in Hx as [-> Hx].
    rewrite Heb by (assumption || lia). rewrite EF by (assumption || lia). reflexivity. }
  rewrite Hg. clear Hg.
  assert (Hnone : (forall u, e u v = true -> dst (src c) u <> Some m) -> sum1 Qcplus (omap (fun k => if e k v then Lev m k c else None) (seq 0 n)) = None).
  { intros H. apply sum1_none. intros k _. destruct (e k v) eqn:E; [|reflexivity]. unfold Lev. rewrite decide_False; [reflexivity|]. apply H, E. }
  destruct (dst (src c) v) as [d|] eqn:D.
  - destruct (decide (d <= m)) as [Hle|Hgt].
    + rewrite decide_False; [reflexivity|]. intros [= ->]. lia.
    + destruct (decide (Some d = Some (S m))) as [[= ->]|Hne].
      * destruct (dst_pred n e He (src c) v m Hl D) as (u & Eu & Du). pose proof (He u v Eu) as [Hun _].
        rewrite (sum1_some _ _ u (Qc_of_nat (sig (src c) u))); [|apply elem_of_seq; lia|rewrite Eu; unfold Lev; rewrite decide_True by exact Du; reflexivity].
        f_equal. rewrite (sig_step n e He (src c) v m Hl D), QN_sum. apply sumQ_ext. intros k _. destruct (e k v); [|symmetry; apply QN_0; reflexivity]. unfold Lev.
        destruct (decide (dst (src c) k = Some m)); [reflexivity|symmetry; apply QN_0; reflexivity].
      * apply Hnone. intros u Eu Du. destruct (dst_step n e He (src c) u v m Hl Du Eu) as (d' & D' & Hd'). rewrite D in D'. injection D' as <-. apply Hne. f_equal. lia.
  - rewrite decide_False by discriminate. apply Hnone. intros u Eu Du. destruct (dst_step n e He (src c) u v m Hl Du Eu) as (d' & D' & _). congruence.
Qed.
Lemma front_N m N F' N' : holds n s N (Upto m) -> holds n s F' (Lev (S m)) -> holds n s N' (fun i j => eAdd (ent N i j) (ent F' i j)) -> holds n s N' (Upto (S m)).
Proof.
  intros (_ & _ & _ & _ & EN) (_ & _ & _ & _ & EF) HN'. eapply holds_ext; [|exact HN']. intros v c Hv Hc. cbn beta. rewrite EN, EF by assumption. unfold Upto, Lev.
  destruct (dst (src c) v) as [d|] eqn:D; [|rewrite decide_False by discriminate; reflexivity].
  destruct (decide (d <= m)) as [H1|H1]; [rewrite decide_False by (intros [= ->]; lia); rewrite decide_True by lia; reflexivity|]. cbn [eAdd].
  destruct (decide (Some d = Some (S m))) as [[= ->]|Hne]; [rewrite decide_True by lia; reflexivity|]. rewrite decide_False; [reflexivity|]. intros Hd. apply Hne. f_equal. lia.
Qed.

(** [preds] holds the levels 1, 2, ... *)
Definition levels (preds : list (csr Qc)) : Prop := forall k P, preds !! k = Some P -> holds n s P (Lev (S k)).
Lemma levels_snoc preds F' : levels preds -> holds n s F' (Lev (S (length preds))) -> levels (preds ++ [F']).
Proof.
  intros HL HF k P HP. destruct (decide (k < length preds)) as [Hk|Hk]; [rewrite lookup_app_l in HP by exact Hk; apply HL, HP|].
  rewrite lookup_app_r in HP by lia. destruct (k - length preds) eqn:E; [|discriminate]. injection HP as <-. assert (k = length preds) as -> by lia. exact HF.
Qed.
(** All distances are less than [D]. *)
Definition bounded (D : nat) : Prop := forall c v d, c < s -> dst (src c) v = Some d -> d < D.
Lemma bounded_level m : (forall v c, v < n -> c < s -> Lev m v c = None) -> bounded m.
Proof.
  intros H c v d Hc. revert v. induction d as [d IH] using lt_wf_ind. intros v D. destruct (decide (d < m)) as [|Hge]; [assumption|exfalso]. pose proof (src_lt c Hc) as Hl.
  destruct (decide (d = m)) as [->|Hne].
  - pose proof (dst_range n e He _ _ _ Hl D) as [_ Hv]. specialize (H v c Hv Hc). unfold Lev in H. rewrite decide_True in H by exact D. discriminate.
  - destruct d as [|d]; [lia|]. destruct (dst_pred n e He (src c) v d Hl D) as (u & _ & Du). specialize (IH d ltac:(lia) u Du). lia.
Qed.

Lemma sigma_ok Atr F N preds preds' N' : holds n n Atr (fun i j => ent A j i) ->
  sigma mxmC n s Atr F N preds preds' N' -> holds n s F (Lev (length preds)) -> holds n s N (Upto (length preds)) -> levels preds ->
  (exists v c, v < n /\ c < s /\ Lev (length preds) v c <> None) ->
  levels preds' /\ holds n s N' (Upto (length preds')) /\ bounded (length preds') /\ 0 < length preds' <= n.
Proof.
  intros HT HS. induction HS as [F N preds F' N' Hm _ HN' Hz|F N preds F' N' preds'' N'' Hm _ HN' Hz HS IH]; intros HF HN HL Hne.
  - pose proof (front_step _ _ _ _ _ HT HF HN Hm) as HF'. pose proof (front_N _ _ _ _ HN HF' HN') as HNN. rewrite app_length. cbn [length]. rewrite Nat.add_1_r.
    split; [apply levels_snoc; assumption|]. split; [exact HNN|]. split; [apply bounded_level; apply (nnz_zero n s F' _ HF' Hz)|].
    destruct Hne as (v & c & Hv & Hc & Hlev). unfold Lev in Hlev. destruct (decide _) as [D|]; [|contradiction]. apply (dst_range n e He) in D; [lia|apply src_lt, Hc].
  - pose proof (front_step _ _ _ _ _ HT HF HN Hm) as HF'. pose proof (front_N _ _ _ _ HN HF' HN') as HNN. rewrite app_length in IH. cbn [length] in IH. rewrite Nat.add_1_r in IH.
    apply IH; [exact HF'|exact HNN|apply levels_snoc; assumption|apply (nnz_nonzero n s F' _ HF' Hz)].
Qed.
Lemma sigma_ex Atr : holds n n Atr (fun i j => ent A j i) -> forall k F N preds, n - length preds <= k -> holds n s F (Lev (length preds)) -> holds n s N (Upto (length preds)) ->
  (exists v c, v < n /\ c < s /\ Lev (length preds) v c <> None) -> exists preds' N', sigma mxmC n s Atr F N preds preds' N'.
Proof.
  intros HT k. induction k as [|k IH]; intros F N preds Hk HF HN Hne.
  - exfalso. destruct Hne as (v & c & Hv & Hc & Hlev). unfold Lev in Hlev. destruct (decide _) as [D|]; [|contradiction]. apply (dst_range n e He) in D; [lia|apply src_lt, Hc].
  - destruct (tr_good Atr HT) as [HG _]. destruct (HmC Atr F N HG (holds_shaped _ _ _ _ HF) (holds_shaped _ _ _ _ HN)) as [[F' Hm] _].
    pose proof (front_step _ _ _ _ _ HT HF HN Hm) as HF'. destruct (holds_ex n s (fun i j => eAdd (ent N i j) (ent F' i j))) as [N' HN'].
    pose proof (front_N _ _ _ _ HN HF' HN') as HNN. assert (HsF : sorted_rows F') by apply HF'. destruct (decide (nnz F' = 0)) as [Hz|Hz].
    + eexists _, _. eapply sigma_stop; eauto.
    + assert (HL : length (preds ++ [F']) = S (length preds)) by (rewrite app_length; cbn; lia).
      destruct (IH F' N' (preds ++ [F'])) as (p' & N'' & HS).
      * rewrite HL. destruct Hne as (v & c & Hv & Hc & Hlev). unfold Lev in Hlev. destruct (decide _) as [D|]; [|contradiction]. apply (dst_range n e He) in D; [lia|apply src_lt, Hc].
      * rewrite HL. exact HF'.
      * rewrite HL. exact HNN.
      * rewrite HL. apply (nnz_nonzero n s F' _ HF' Hz).
      * eexists _, _. eapply sigma_more; eauto.
Qed.

(** What BCu holds when the levels above [d] are done *)
Definition Acc (d v c : nat) : option Qc :=
  Some (1 + match dst (src c) v with Some x => if decide (d < x)%nat then dep (src c) v else 0 | None => 0 end)%Qc.

Section Back.
Context (N Ninv : csr Qc) (preds : list (csr Qc)) (HL : levels preds) (HB : bounded (length preds)).
Context (HN : holds n s N (Upto (length preds))) (HI : holds n s Ninv (fun i j => option_map Qcinv (ent N i j))).

Lemma N_at v c : v < n -> c < s -> ent N v c = match dst (src c) v with Some _ => Some (Qc_of_nat (sig (src c) v)) | None => None end.
Proof.
  intros Hv Hc. destruct HN as (_ & _ & _ & _ & EN). rewrite EN by assumption. unfold Upto. destruct (dst (src c) v) as [d|] eqn:D; [|reflexivity].
  rewrite decide_True; [reflexivity|]. specialize (HB c v d Hc D). lia.
Qed.
Lemma Lev_on m v c : v < n -> c < s -> maskOn (Lev m v c) = bool_decide (dst (src c) v = Some m).
Proof.
  intros Hv Hc. unfold Lev. destruct (decide (dst (src c) v = Some m)) as [D|D]; [|rewrite bool_decide_eq_false_2 by exact D; reflexivity]. rewrite (bool_decide_eq_true_2 (dst _ _ = _)) by exact D. cbn.
  apply bool_decide_eq_true_2. rewrite QN_0. eapply (sig_pos n e He); [apply src_lt, Hc|exact D].
Qed.

Definition Wv (d v c : nat) : option Qc :=
  if decide (dst (src c) v = Some d) then Some (/ Qc_of_nat (sig (src c) v) * (1 + dep (src c) v))%Qc else None.

Lemma back_W d B W Pd : preds !! S d = Some Pd -> holds n s B (Acc (S d)) ->
  holds n s W (fun i j => if maskOn (ent Pd i j) then eMult (ent Ninv i j) (ent B i j) else None) -> holds n s W (Wv (S (S d))).
Proof.
  intros HP HB' HW. apply HL in HP as (_ & _ & _ & _ & EP). destruct HB' as (_ & _ & _ & _ & EB). pose proof HI as (_ & _ & _ & _ & EI).
  eapply holds_ext; [|exact HW]. intros v c Hv Hc. cbn beta. rewrite EP, EB, EI, N_at by assumption. rewrite Lev_on by assumption. unfold Wv, Acc.
  destruct (dst (src c) v) as [x|] eqn:D; [|rewrite bool_decide_eq_false_2, decide_False by discriminate; reflexivity].
  destruct (decide (Some x = Some (S (S d)))) as [[= ->]|Hne]; [|rewrite bool_decide_eq_false_2 by exact Hne; reflexivity].
  rewrite bool_decide_eq_true_2 by reflexivity. cbn [option_map eMult]. rewrite decide_True by lia. reflexivity.
Qed.

Lemma back_B d B W W' Pd1 B' : preds !! d = Some Pd1 -> holds n s B (Acc (S d)) -> holds n s W (Wv (S (S d))) -> mxmP A W Pd1 W' ->
  holds n s B' (fun i j => eAdd (ent B i j) (eMult (ent W' i j) (ent N i j))) -> holds n s B' (Acc d).
Proof.
  intros HP HB' HW Hm HB''. apply HL in HP. pose proof (holds_shaped _ _ _ _ HP) as SP. pose proof (holds_shaped _ _ _ _ HW) as SW. destruct (HmP A W Pd1 HA SW SP) as [_ Hprod].
  pose proof (plain_holds n s A W Pd1 W' HA SW SP (Hprod W' Hm)) as (_ & _ & _ & _ & EW'). destruct HP as (_ & _ & _ & _ & EP). destruct HB' as (_ & _ & _ & _ & EB). destruct HW as (_ & _ & _ & _ & EW).
  eapply holds_ext; [|exact HB'']. intros v c Hv Hc. cbn beta. rewrite EB, EW', EP, N_at by assumption. pose proof (src_lt c Hc) as Hl. unfold Acc, Lev at 1.
  destruct (dst (src c) v) as [x|] eqn:D; [|rewrite decide_False by discriminate; reflexivity].
  destruct (decide (Some x = Some (S d))) as [[= ->]|Hne].
  - rewrite decide_False by lia. rewrite decide_True by lia. rewrite (prod_ent n s A W v c HA SW Hv).
    assert (Hg : omap (fun k => if e v k then ent W k c else None) (seq 0 n) = omap (fun k => if e v k then Wv (S (S d)) k c else None) (seq 0 n)).
    { apply list_omap_ext. apply Forall2_same_length_lookup_2; [reflexivity|]. intros i y z Hy Hz. rewrite Hy in Hz. injection Hz as <-. apply lookup_seq in Hy as [-> Hy]. rewrite EW by (assumption || lia). reflexivity. }
    rewrite Hg. clear Hg. rewrite (dep_step n e He (src c) v (S d) Hl D).
    destruct (decide (Exists (fun w => e v w = true /\ dst (src c) w = Some (S (S d))) (seq 0 n))) as [Hex|Hex].
    + apply Exists_exists in Hex as (w & Hw & Ew & Dw). rewrite (sum1_some _ _ w (/ Qc_of_nat (sig (src c) w) * (1 + dep (src c) w))%Qc); [|exact Hw|rewrite Ew; unfold Wv; rewrite decide_True by exact Dw; reflexivity].
      cbn [eMult eAdd]. f_equal. rewrite Qcplus_0_r. f_equal. rewrite <- sumQ_mul. apply sumQ_ext. intros k Hk. destruct (e v k); [|cbn [default from_option]; ring]. unfold Wv. destruct (decide _) as [Dk|]; [|cbn [default from_option]; ring].
      cbn [default from_option]. unfold Qcdiv, id. ring.
    + rewrite sum1_none; [cbn [eMult eAdd]; f_equal; rewrite Qcplus_0_r; f_equal|].
      * rewrite sumQ_0; [ring|]. intros k Hk. destruct (e v k) eqn:Ek; [|reflexivity]. destruct (decide _) as [Dk|]; [|reflexivity]. exfalso. apply Hex, Exists_exists. eauto.
      * intros k Hk. destruct (e v k) eqn:Ek; [|reflexivity]. unfold Wv. destruct (decide _) as [Dk|]; [|reflexivity]. exfalso. apply Hex, Exists_exists. eauto.
  - cbn [eMult eAdd]. f_equal. f_equal. destruct (decide (S d < x)) as [H1|H1]; [rewrite decide_True by lia; reflexivity|]. rewrite decide_False; [reflexivity|]. intros H2. apply Hne. f_equal. lia.
Qed.

Lemma back_ok d B R : back mxmP n s A N Ninv preds d B R -> holds n s B (Acc d) -> holds n s R (Acc 0).
Proof.
  induction 1 as [B|d B Pd Pd1 W W' B' R HP HP1 HW Hm _ HB' HR IH]; intros HAcc; [exact HAcc|]. apply IH.
  pose proof (back_W d B W Pd HP HAcc HW) as HW'. eapply back_B; eauto.
Qed.
Lemma back_ex d : d < length preds -> forall B, holds n s B (Acc d) -> exists R, back mxmP n s A N Ninv preds d B R.
Proof.
  induction d as [|d IH]; intros Hd B HAcc; [eexists; apply back_done|]. destruct (lookup_lt_is_Some_2 preds (S d) Hd) as [Pd HP]. destruct (lookup_lt_is_Some_2 preds d ltac:(lia)) as [Pd1 HP1].
  destruct (holds_ex n s (fun i j => if maskOn (ent Pd i j) then eMult (ent Ninv i j) (ent B i j) else None)) as [W HW]. pose proof (back_W d B W Pd HP HAcc HW) as HWv.
  pose proof (holds_shaped _ _ _ _ HWv) as SW. pose proof (holds_shaped _ _ _ _ (HL d Pd1 HP1)) as SP. destruct (HmP A W Pd1 HA SW SP) as [[W' Hm] Hprod].
  pose proof (plain_holds n s A W Pd1 W' HA SW SP (Hprod W' Hm)) as HW'. destruct (holds_ex n s (fun i j => eAdd (ent B i j) (eMult (ent W' i j) (ent N i j)))) as [B' HB'].
  pose proof (back_B d B W W' Pd1 B' HP1 HAcc HWv Hm HB') as HAcc'. destruct (IH ltac:(lia) B' HAcc') as [R HR]. exists R. eapply back_step; eauto. apply HW'.
Qed.
End Back.

Lemma start_Acc D B0 : bounded D -> 0 < D -> holds n s B0 (fun _ _ => Some 1%Qc) -> holds n s B0 (Acc (D - 1)).
Proof.
  intros HB HD. apply holds_ext. intros v c Hv Hc. unfold Acc. f_equal. destruct (dst (src c) v) as [x|] eqn:Dx; [|ring]. specialize (HB c v x Hc Dx). rewrite decide_False by lia. ring.
Qed.

(** Row sums of a full matrix *)
Lemma row_full m C f i : holds n m C f -> i < n -> (forall j, j < m -> exists x, f i j = Some x) ->
  snd <$> row_entries C i = (fun j => default 0%Qc (f i j)) <$> seq 0 m.
Proof.
  intros HC Hi Hf. pose proof (holds_shaped _ _ _ _ HC) as HS. destruct HC as (Hw & Hs & Hr & Hc & He).
  assert (Hk : fst <$> row_entries C i = seq 0 m).
  { assert (Hanti : AntiSymm eq lt) by (intros x y; lia). apply (StronglySorted_unique lt); [apply Hs; lia| |].
    - assert (Hseq : forall a k, StronglySorted lt (seq a k)). { intros a k. revert a. induction k as [|k IH]; intros a; [constructor|]. cbn [seq]. constructor; [apply IH|]. apply Forall_forall. intros x Hx. apply elem_of_seq in Hx. lia. }
      apply Hseq.
    - apply NoDup_Permutation; [eapply shaped_nodup; eauto|apply NoDup_seq|]. intros x. rewrite elem_of_seq. split.
      + intros Hx. pose proof (row_cols_range C i x Hw Hx). lia.
      + intros Hx. destruct (decide (x ∈ fst <$> row_entries C i)) as [|Hno]; [assumption|]. apply (ent_None C i x) in Hno. rewrite He in Hno by lia. destruct (Hf x ltac:(lia)). congruence. }
  rewrite <- Hk, <- list_fmap_compose. apply list_fmap_ext. intros q [j v] Hq. cbn. assert (Hin : (j, v) ∈ row_entries C i) by (eapply elem_of_list_lookup_2, Hq).
  assert (Hj : j < m) by (rewrite <- Hc; eapply row_entries_range; eauto). apply (ent_Some n m C i j v HS Hi) in Hin. rewrite He in Hin by assumption. rewrite Hin. reflexivity.
Qed.

Lemma share_dep sp spv c v : c < s -> v < n ->
  (forall t, t < n -> counts (shortest (edge A) (src c) t) (sp (src c) t)) ->
  (forall t, t < n -> counts (fun l => shortest (edge A) (src c) t l /\ v ∈ l) (spv (src c) t v)) ->
  sumQc ((fun t => betweenShare sp spv (src c) t v) <$> seq 0 n) = match dst (src c) v with Some x => if decide (0 < x) then dep (src c) v else 0%Qc | None => 0%Qc end.
Proof.
  intros Hc Hv H1 H2. pose proof (src_lt c Hc) as Hl.
  assert (Hcu : forall (P Q : list nat -> Prop) a b, (forall l, P l <-> Q l) -> counts P a -> counts Q b -> a = b).
  { intros P Q a b HPQ (ls & N1 & E1 & <-) (ks & N2 & E2 & <-). apply Permutation_length, NoDup_Permutation; [exact N1|exact N2|]. intros l. rewrite E1, E2. apply HPQ. }
  assert (Hw : forall u w l, walk (edge A) u w l <-> walk (fun u v => e u v = true) u w l).
  { intros u w l. split; intros H; induction H; econstructor; eauto; apply eb_true; assumption. }
  assert (Hsh : forall t l, shortest (edge A) (src c) t l <-> shortest (fun u v => e u v = true) (src c) t l).
  { intros t l. unfold shortest. rewrite Hw. split; intros [X Y]; (split; [exact X|]); intros l' Hl'; apply Y, Hw, Hl'. }
  assert (Hsp : forall t, t < n -> sp (src c) t = sig (src c) t). { intros t Ht. eapply Hcu; [apply Hsh|apply H1, Ht|apply (sig_counts n e He), Hl]. }
  assert (Hspv : forall t, t < n -> spv (src c) t v = sigv n e (src c) t v).
  { intros t Ht. eapply Hcu; [|apply H2, Ht|apply (sigv_counts n e He), Hl]. intros l. cbn beta. rewrite Hsh. reflexivity. }
  transitivity (sumQ (seq 0 n) (fun t => if decide (v = src c \/ v = t) then 0%Qc else (Qc_of_nat (sigv n e (src c) t v) / Qc_of_nat (sig (src c) t))%Qc)).
  { apply sumQ_ext. intros t Ht. apply elem_of_seq in Ht. unfold betweenShare. rewrite Hsp, Hspv by lia. reflexivity. }
  destruct (dst (src c) v) as [x|] eqn:D.
  - destruct (decide (0 < x)) as [Hx|Hx].
    + apply sumQ_ext. intros t _. assert (v <> src c) by (intros ->; rewrite (dst_self n e He) in D by exact Hl; injection D as <-; lia).
      destruct (decide (t = v)) as [->|Hne]; [rewrite decide_True by auto; reflexivity|]. rewrite decide_False by (intros [|]; congruence). reflexivity.
    + assert (x = 0) as -> by lia. apply (dst_0 n e He) in D; [|exact Hl]. apply sumQ_0. intros t _. rewrite decide_True by auto. reflexivity.
  - apply sumQ_0. intros t _. unfold sigv. rewrite D. destruct (decide _); [reflexivity|]. unfold Qcdiv. rewrite (proj2 (QN_0 0) eq_refl). ring.
Qed.

Lemma delta_ok BCu sp spv : 0 < s -> holds n s BCu (Acc 0) ->
  (forall x t, x ∈ srcs -> t < n -> counts (shortest (edge A) x t) (sp x t)) ->
  (forall x t v, x ∈ srcs -> t < n -> v < n -> counts (fun l => shortest (edge A) x t l /\ v ∈ l) (spv x t v)) ->
  option_map (fun x => (x + - Qc_of_nat s)%Qc) <$> rowSums BCu = (fun v => Some (centrality n srcs sp spv v)) <$> seq 0 n.
Proof.
  intros Hs HB H1 H2. unfold rowSums. assert (Hr : rows BCu = n) by apply HB. rewrite Hr, <- list_fmap_compose. apply list_fmap_ext. intros i v Hi. apply lookup_seq in Hi as [-> Hi]. cbn [compose Nat.add].
  rewrite (row_full s BCu (Acc 0) i HB Hi) by (intros j Hj; eexists; reflexivity). rewrite sum1_Qc. assert (Hne : (fun j => default 0%Qc (Acc 0 i j)) <$> seq 0 s <> []) by (intros E0; apply (f_equal length) in E0; rewrite fmap_length, seq_length in E0; cbn in E0; lia).
  assert (Hm1 : forall l : list Qc, l <> [] -> match l with [] => None | _ => Some (sumQc l) end = Some (sumQc l)) by (intros [|]; [contradiction|reflexivity]).
  rewrite Hm1 by exact Hne. cbn [option_map]. f_equal. change (sumQc ((fun j => default 0%Qc (Acc 0 i j)) <$> seq 0 s)) with (sumQ (seq 0 s) (fun j => default 0%Qc (Acc 0 i j))).
  rewrite (sumQ_ext _ _ (fun c => (1 + match dst (src c) i with Some x => if decide (0 < x)%nat then dep (src c) i else 0 | None => 0 end)%Qc)) by reflexivity.
  rewrite (sumQ_add (seq 0 s) (fun _ => 1%Qc)).
  assert (Hone : forall l, sumQ l (fun _ => 1%Qc) = Qc_of_nat (length l)).
  { induction l as [|y l IH]; [symmetry; apply QN_0; reflexivity|]. rewrite sumQ_cons, IH. cbn [length]. rewrite <- Nat.add_1_l, QN_add. f_equal. }
  rewrite Hone, seq_length.
  transitivity (sumQ (seq 0 s) (fun c => match dst (src c) i with Some x => if decide (0 < x) then dep (src c) i else 0%Qc | None => 0%Qc end)); [ring|].
  unfold centrality. assert (Hmap : srcs = src <$> seq 0 s).
  { apply list_eq. intros q. rewrite list_lookup_fmap. destruct (decide (q < s)) as [Hq|Hq].
    - rewrite lookup_seq_lt by exact Hq. cbn. unfold src. destruct (lookup_lt_is_Some_2 srcs q Hq) as [y Hy]. rewrite Hy. reflexivity.
    - rewrite !lookup_ge_None_2; [reflexivity|rewrite seq_length; lia|lia]. }
  set (g := fun x => sumQc ((fun t => betweenShare sp spv x t i) <$> seq 0 n)). assert (Hg : g <$> srcs = g <$> (src <$> seq 0 s)) by (rewrite <- Hmap; reflexivity).
  rewrite Hg, <- list_fmap_compose. apply sumQ_ext. intros c Hc. apply elem_of_seq in Hc. cbn [compose]. symmetry.
  assert (Hin : src c ∈ srcs). { unfold src. destruct (lookup_lt_is_Some_2 srcs c ltac:(lia)) as [y Hy]. rewrite Hy. eapply elem_of_list_lookup_2, Hy. }
  apply share_dep; [lia|exact Hi|intros t Ht; apply H1; assumption|intros t Ht; apply H2; assumption].
Qed.
End Run.

Lemma bc_start n A srcs : good n A -> 0 < length srcs -> Forall (fun v => v < n) srcs -> exists v c, v < n /\ c < length srcs /\ Lev n srcs A 0 v c <> None.
Proof.
  intros HA Hs Hf. pose proof (src_lt n srcs Hf 0 Hs) as Hl. exists (src srcs 0), 0. split; [exact Hl|]. split; [exact Hs|]. unfold Lev.
  rewrite (dst_self n (eb A) (eb_range n A HA)) by exact Hl. rewrite decide_True by reflexivity. discriminate.
Qed.

Theorem bc_correct mxmC mxmP n A srcs : complCall n (length srcs) mxmC -> plainCall n (length srcs) mxmP -> good n A -> 0 < length srcs -> Forall (fun v => v < n) srcs ->
  (exists rounds delta, bcRun mxmC mxmP A srcs rounds delta) /\
  forall rounds delta sp spv, bcRun mxmC mxmP A srcs rounds delta ->
    (forall s t, s ∈ srcs -> t < n -> counts (shortest (edge A) s t) (sp s t)) ->
    (forall s t v, s ∈ srcs -> t < n -> v < n -> counts (fun l => shortest (edge A) s t l /\ v ∈ l) (spv s t v)) ->
    rounds <= n /\ delta = (fun v => Some (centrality n srcs sp spv v)) <$> seq 0 n.
Proof.
  intros HmC HmP HA Hs Hf. pose proof HA as (_ & _ & Hr & _). split.
  - destruct (holds_ex n (length srcs) (buildF srcs)) as [F HF]. destruct (holds_ex n n (fun i j => ent A j i)) as [Atr HT]. destruct (start_F n srcs A HA Hf F HF) as [HF0 HN0].
    destruct (sigma_ex mxmC n srcs HmC A HA Hf Atr HT (n - 0) F F [] ltac:(cbn; lia) HF0 HN0 (bc_start n A srcs HA Hs Hf)) as (preds & N & HS).
    destruct (sigma_ok mxmC n srcs HmC A HA Hf Atr F F [] preds N HT HS HF0 HN0 ltac:(intros k P HP; destruct k; discriminate) (bc_start n A srcs HA Hs Hf)) as (HL & HN & HB & Hlen).
    destruct (holds_ex n (length srcs) (fun i j => option_map Qcinv (ent N i j))) as [Ninv HI]. destruct (holds_ex n (length srcs) (fun _ _ => Some 1%Qc)) as [B0 HB0].
    destruct (back_ex mxmP n srcs HmP A HA Hf N Ninv preds HL HB HN HI (length preds - 1) ltac:(lia) B0 (start_Acc n srcs A (length preds) B0 HB ltac:(lia) HB0)) as [R HR].
    exists (length preds). eexists. unfold bcRun. rewrite Hr. cbv zeta. split; [exact Hs|]. split; [exact Hf|]. exists F, Atr, preds, N, Ninv, B0, R. auto 10.
  - intros rounds delta sp spv HRun H1 H2. unfold bcRun in HRun. rewrite Hr in HRun. cbv zeta in HRun. destruct HRun as (_ & _ & F & Atr & preds & N & Ninv & B0 & R & HF & HT & HS & HI & HB0 & HR & -> & ->).
    destruct (start_F n srcs A HA Hf F HF) as [HF0 HN0].
    destruct (sigma_ok mxmC n srcs HmC A HA Hf Atr F F [] preds N HT HS HF0 HN0 ltac:(intros k P HP; destruct k; discriminate) (bc_start n A srcs HA Hs Hf)) as (HL & HN & HB & Hlen).
    split; [lia|]. apply (delta_ok n srcs A HA Hf R sp spv Hs); [|exact H1|exact H2].
    eapply (back_ok mxmP n srcs HmP A HA Hf N Ninv preds HL HB HN HI); [exact HR|]. apply start_Acc; [exact HB|lia|exact HB0].
Qed.
