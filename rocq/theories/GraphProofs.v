(** Proofs about the graph programs. *)
From stdpp Require Import numbers list_numbers.
From Verif Require Import BaseProofs McaProofs GraphSpec GraphModel DriverStatements Assemble ConvProofs.
From Verif Require Import Base Spec.

Lemma sum_ones (l : list Z) x : Forall (eq 1%Z) l -> fold_left Z.add l x = (x + Z.of_nat (length l))%Z.
Proof.
  intros H. revert x. induction H as [|y l <- _ IH]; intros x; simpl; [lia|]. rewrite IH. lia.
Qed.
Lemma sum1_ones (l : list Z) : Forall (eq 1%Z) l ->
  sum1 Z.add l = if decide (length l = 0) then None else Some (Z.of_nat (length l)).
Proof.
  intros H. destruct H as [|y l <- H]; [reflexivity|]. simpl. rewrite sum_ones by exact H. f_equal. lia.
Qed.

Lemma filter_col_one (l : list (nat * Z)) j : NoDup (fst <$> l) ->
  length (filter (fun cb => fst cb = j) l) = if decide (j ∈ fst <$> l) then 1 else 0.
Proof.
  induction l as [|[c v] l IH]; intros Hnd.
  - rewrite decide_False by (intros H; inversion H). reflexivity.
  - rewrite fmap_cons in Hnd |- *. apply NoDup_cons in Hnd as [Hc Hnd]. specialize (IH Hnd). rewrite filter_cons. cbn [fst] in *.
    destruct (decide (c = j)) as [->|Hne].
    + cbn [length]. rewrite IH. rewrite decide_False by exact Hc. rewrite decide_True by left. reflexivity.
    + rewrite IH. destruct (decide (j ∈ fst <$> l)) as [Hin|Hin].
      * rewrite decide_True by (right; exact Hin). reflexivity.
      * rewrite decide_False; [reflexivity|]. intros H. apply elem_of_cons in H as [H|H]; [congruence|exact (Hin H)].
Qed.

Section Count.
Context (A B : csr Z).
Definition cnt2 (i j : nat) : nat := length (filter (fun w => j ∈ row_cols B w) (row_cols A i)).

Lemma products_ones i j : Forall (eq 1%Z) (products fOne (row_entries A i) (row_entries B) j).
Proof.
  unfold products. apply Forall_forall. intros x Hx. apply elem_of_list_join in Hx as (l & Hl & Hin).
  apply elem_of_list_fmap in Hin as (e & -> & _). apply elem_of_list_fmap in Hl as (y & -> & _). reflexivity.
Qed.
Lemma products_count i j : (forall w, w ∈ row_cols A i -> NoDup (row_cols B w)) ->
  length (products fOne (row_entries A i) (row_entries B) j) = cnt2 i j.
Proof.
  unfold cnt2, products. change (row_cols A i) with (fst <$> row_entries A i). induction (row_entries A i) as [|e l IH]; intros H; [reflexivity|].
  rewrite !fmap_cons, mjoin_cons, filter_cons, app_length, fmap_length. rewrite IH by (intros w Hw; apply H; rewrite fmap_cons; right; exact Hw).
  rewrite (filter_col_one (row_entries B e.1) j) by (apply H; rewrite fmap_cons; left). change (fst <$> row_entries B e.1) with (row_cols B e.1).
  destruct (decide (j ∈ row_cols B e.1)); reflexivity.
Qed.
Lemma entry_count i j : (forall w, w ∈ row_cols A i -> NoDup (row_cols B w)) ->
  prod_entry fOne Z.add A B i j = if decide (cnt2 i j = 0) then None else Some (Z.of_nat (cnt2 i j)).
Proof. intros H. unfold prod_entry, entry. rewrite sum1_ones by apply products_ones. rewrite products_count by exact H. reflexivity. Qed.

Lemma spec_row_count M i : (forall w, w ∈ row_cols A i -> NoDup (row_cols B w)) ->
  spec_row fOne Z.add A B M i = (fun j => (j, Z.of_nat (cnt2 i j))) <$> filter (fun j => cnt2 i j <> 0) (row_cols M i).
Proof.
  intros H. unfold spec_row, masked_row. induction (row_cols M i) as [|j l IH]; [reflexivity|].
  cbn [omap list_omap]. rewrite filter_cons. pose proof (entry_count i j H) as E. unfold prod_entry in E. rewrite E.
  destruct (decide (cnt2 i j = 0)) as [Hz|Hz].
  - rewrite decide_False by tauto. cbn [fmap option_fmap option_map]. exact IH.
  - rewrite decide_True by exact Hz. rewrite fmap_cons. cbn [fmap option_fmap option_map]. rewrite IH. reflexivity.
Qed.
End Count.

(** At least [s] vertices joined to both ends. *)
Lemma cnt2_ge A B i j s : NoDup (row_cols A i) ->
  s <= cnt2 A B i j <-> exists ws, NoDup ws /\ length ws = s /\ forall w, w ∈ ws -> w ∈ row_cols A i /\ j ∈ row_cols B w.
Proof.
  intros Hnd. unfold cnt2. split.
  - intros Hs. exists (take s (filter (fun w => j ∈ row_cols B w) (row_cols A i))). split; [|split].
    + pose proof (NoDup_filter (fun w => j ∈ row_cols B w) _ Hnd) as Hf. rewrite <- (take_drop s) in Hf. apply NoDup_app in Hf as (Hf & _). exact Hf.
    + rewrite take_length. lia.
    + intros w Hw. assert (Hin : w ∈ filter (fun w => j ∈ row_cols B w) (row_cols A i)).
      { apply elem_of_list_lookup in Hw as [q Hq]. apply lookup_take_Some in Hq as [Hq _]. eapply elem_of_list_lookup_2, Hq. }
      apply elem_of_list_filter in Hin as [H1 H2]. auto.
  - intros (ws & Hn & <- & Hw). apply submseteq_length. apply NoDup_submseteq; [exact Hn|].
    intros w Hin. apply elem_of_list_filter. destruct (Hw w Hin). auto.
Qed.

Section Good.
Context (n : nat).
Notation good := (good n).

Lemma good_nodup {V} (T : csr V) w : good T -> w < n -> NoDup (row_cols T w).
Proof. intros (Hw & Hs & Hr & _) H. apply SSorted_NoDup. apply Hs. lia. Qed.
Lemma good_col {V} (T : csr V) i w : good T -> i < n -> w ∈ row_cols T i -> w < n.
Proof.
  intros (Hw & Hs & Hr & Hc) Hi Hin. apply elem_of_list_fmap in Hin as ([c v] & -> & Hin). rewrite <- Hc. eapply row_entries_range; eauto.
Qed.

Lemma nnz_rows {V} (T : csr V) : wf T -> nnz T = sum_list ((fun i => length (row_cols T i)) <$> seq 0 (rows T)).
Proof.
  intros Hw. pose proof (wf_pre T (rows T) Hw ltac:(lia)) as H. rewrite (wf_last _ Hw) in H. injection H as ->.
  unfold pre. f_equal. apply list_fmap_ext. intros i x _. unfold row_cols. rewrite fmap_length. reflexivity.
Qed.

Lemma sum_le (f g : nat -> nat) l : (forall i, i ∈ l -> f i <= g i) -> sum_list (f <$> l) <= sum_list (g <$> l) /\
  (sum_list (f <$> l) = sum_list (g <$> l) -> forall i, i ∈ l -> f i = g i).
Proof.
  induction l as [|x l IH]; intros H; [split; [reflexivity|intros _ i Hi; inversion Hi]|].
  destruct IH as [IH1 IH2]; [intros i Hi; apply H; right; exact Hi|]. rewrite !fmap_cons.
  change (sum_list (f x :: (f <$> l))) with (f x + sum_list (f <$> l)). change (sum_list (g x :: (g <$> l))) with (g x + sum_list (g <$> l)).
  pose proof (H x (elem_of_list_here _ _)) as Hx. split; [lia|]. intros E i Hi. apply elem_of_cons in Hi as [->|Hi]; [lia|]. apply IH2; [lia|exact Hi].
Qed.

Lemma filter_len_eq {X} (P : X -> Prop) `{forall x, Decision (P x)} (l : list X) : length (filter P l) = length l -> filter P l = l.
Proof.
  induction l as [|x l IH]; [reflexivity|]. rewrite filter_cons. destruct (decide (P x)); cbn [length]; intros E.
  - f_equal. apply IH. lia.
  - pose proof (filter_length P l). lia.
Qed.

Lemma select_ex s C0 : wf C0 -> exists C, selectGE s C0 C.
Proof.
  intros Hw. exists (assemble (fun i => filter (fun e => (s <= snd e)%Z) (row_entries C0 i)) (rows C0) (cols C0)).
  split; [|split; [reflexivity|split; [reflexivity|]]].
  - apply assemble_wf. intros i c v Hi Hin. apply elem_of_list_filter in Hin as [_ Hin]. eapply row_entries_range; eauto.
  - intros i Hi. exact (assemble_row (fun i => filter (fun e => (s <= snd e)%Z) (row_entries C0 i)) (rows C0) (cols C0) i Hi).
Qed.
Lemma edge_lt {V} (T : csr V) i j : good T -> edge T i j -> i < n /\ j < n.
Proof. intros HG [Hi Hj]. pose proof HG as (_ & _ & Hr & _). split; [lia|]. eapply good_col; eauto. lia. Qed.

End Good.

Section Round.
Context (mxm : csr Z -> csr Z -> Prop) (n k : nat).
Notation good := (good n).
Hypothesis Hmxm : forall T, wf T -> sorted_rows T -> rows T = n -> cols T = n -> exists C0, mxm T C0.
Hypothesis Hprod : forall T C0, wf T -> sorted_rows T -> rows T = n -> cols T = n -> mxm T C0 ->
  product_matrix T T C0 (fun i l => l = spec_row fOne Z.add T T T i).
Definition thr : nat := Nat.max 1 (k - 2).

Lemma round_row T C : 2 <= k -> good T -> kround mxm k T C -> good C /\ forall i, i < n ->
  row_cols C i = filter (fun j => thr <= cnt2 T T i j) (row_cols T i).
Proof.
  intros Hk HG (C0 & Hm & Hs). pose proof HG as (Hw & Hsr & Hr & Hc). destruct (Hprod T C0 Hw Hsr Hr Hc Hm) as (Hw0 & Hr0 & Hc0 & Hrow).
  destruct Hs as (HwC & HrC & HcC & HsC).
  assert (Hrows : forall i, i < n -> row_cols C i = filter (fun j => thr <= cnt2 T T i j) (row_cols T i)).
  { intros i Hi. unfold row_cols at 1. rewrite HsC by lia. rewrite Hrow by lia.
    rewrite spec_row_count by (intros w Hin; apply (good_nodup n); [exact HG|eapply good_col; eauto]).
    rewrite filter_fmap, <- list_fmap_compose. change (fst ∘ (fun j => (j, Z.of_nat (cnt2 T T i j)))) with (fun j : nat => j). rewrite list_fmap_id.
    rewrite list_filter_filter. apply list_filter_iff. intros j. unfold thr. cbn [snd compose]. lia. }
  split; [|exact Hrows]. split; [exact HwC|]. split; [|split; congruence].
  intros i Hi. rewrite Hrows by congruence. specialize (Hsr i ltac:(congruence)).
  induction Hsr as [|x l Hl IH Hf]; [constructor|]. rewrite filter_cons. destruct (decide _); [|exact IH]. constructor; [exact IH|].
  apply Forall_forall. intros y Hy. apply elem_of_list_filter in Hy as [_ Hy]. rewrite Forall_forall in Hf. auto.
Qed.

Lemma round_ex T : good T -> exists C, kround mxm k T C.
Proof.
  intros (Hw & Hs & Hr & Hc). destruct (Hmxm T Hw Hs Hr Hc) as [C0 Hm]. destruct (Hprod T C0 Hw Hs Hr Hc Hm) as (Hw0 & _).
  destruct (select_ex (Z.of_nat k - 2) C0 Hw0) as [C HC]. exists C, C0. auto.
Qed.

Lemma round_edge T C i j : 2 <= k -> good T -> kround mxm k T C ->
  edge C i j <-> edge T i j /\ exists ws, NoDup ws /\ length ws = thr /\ forall w, w ∈ ws -> edge T i w /\ edge T w j.
Proof.
  intros Hk HG HR. destruct (round_row T C Hk HG HR) as [HC Hrow]. pose proof HG as (_ & _ & Hr & _). pose proof HC as (_ & _ & Hr' & _).
  unfold edge. split.
  - intros [Hi Hj]. rewrite Hrow in Hj by lia. apply elem_of_list_filter in Hj as [Hc Hj]. split; [split; [lia|exact Hj]|].
    apply cnt2_ge in Hc; [|apply (good_nodup n); auto; lia]. destruct Hc as (ws & H1 & H2 & H3). exists ws. split; [exact H1|]. split; [exact H2|].
    intros w Hw. destruct (H3 w Hw) as [H4 H5]. split; [split; [lia|exact H4]|]. split; [|exact H5].
    rewrite Hr. eapply good_col; [exact HG| |exact H4]. lia.
  - intros [[Hi Hj] (ws & H1 & H2 & H3)]. split; [lia|]. rewrite Hrow by lia. apply elem_of_list_filter. split; [|exact Hj].
    apply cnt2_ge; [apply (good_nodup n); auto; lia|]. exists ws. split; [exact H1|]. split; [exact H2|].
    intros w Hw. destruct (H3 w Hw) as [[_ H4] [_ H5]]. auto.
Qed.

Lemma round_nnz T C : 2 <= k -> good T -> kround mxm k T C -> nnz C <= nnz T /\ (nnz C = nnz T -> forall i j, edge C i j <-> edge T i j).
Proof.
  intros Hk HG HR. destruct (round_row T C Hk HG HR) as [HC Hrow]. pose proof HG as (Hw & _ & Hr & _). pose proof HC as (Hw' & _ & Hr' & _).
  rewrite (nnz_rows T Hw), (nnz_rows C Hw'), Hr, Hr'.
  destruct (sum_le (fun i => length (row_cols C i)) (fun i => length (row_cols T i)) (seq 0 n)) as [H1 H2].
  { intros i Hi. apply elem_of_seq in Hi. rewrite Hrow by lia. apply filter_length. }
  split; [exact H1|]. intros E i j. specialize (H2 E). unfold edge. rewrite Hr, Hr'. split; intros [Hi Hj]; (split; [exact Hi|]);
    specialize (H2 i ltac:(apply elem_of_seq; lia)); rewrite Hrow in * by lia; rewrite (filter_len_eq _ _ H2) in *; exact Hj.
Qed.

Lemma kloop_ok T last R st : 2 <= k -> good T -> nnz T = last -> kloop mxm k T last R st ->
  good R /\ (forall i j, edge R i j -> edge T i j) /\ trussed thr (edge R) /\
  (forall S : nat -> nat -> Prop, (forall i j, S i j -> edge T i j) -> trussed thr S -> forall i j, S i j -> edge R i j) /\
  ((forall i j, edge T i j -> edge T j i) -> forall i j, edge R i j -> edge R j i) /\ st <= nnz T + 1.
Proof.
  intros Hk HG Hl HL. revert HG Hl. induction HL as [T last C HR He|T last C R st HR Hne HL IH]; intros HG Hl.
  - destruct (round_row T C Hk HG HR) as [HC _]. destruct (round_nnz T C Hk HG HR) as [_ Heq]. rewrite He, <- Hl in Heq. specialize (Heq eq_refl).
    pose proof (fun i j => round_edge T C i j Hk HG HR) as Hed. split; [exact HC|]. split; [intros i j; apply Heq|]. split.
    { intros i j Hij. apply Hed in Hij as (_ & ws & H1 & H2 & H3). exists ws. split; [exact H1|]. split; [exact H2|].
      intros w Hw. destruct (H3 w Hw). split; apply Heq; assumption. }
    split; [|split; [|lia]].
    + intros S HS HT i j Hij. apply Heq, HS, Hij.
    + intros Hsym i j Hij. apply Heq, Hsym, Heq, Hij.
  - destruct (round_row T C Hk HG HR) as [HC _]. destruct (round_nnz T C Hk HG HR) as [Hle _].
    pose proof (fun i j => round_edge T C i j Hk HG HR) as Hed. destruct (IH HC eq_refl) as (H1 & H2 & H3 & H4 & H5 & H6).
    split; [exact H1|]. split; [intros i j Hij; apply Hed, H2, Hij|]. split; [exact H3|]. split; [|split; [|lia]].
    + intros S HS HT i j Hij. apply (H4 S); [|exact HT|exact Hij]. intros a b Hab. apply Hed. split; [auto|].
      destruct (HT a b Hab) as (ws & W1 & W2 & W3). exists ws. split; [exact W1|]. split; [exact W2|]. intros w Hw. destruct (W3 w Hw). auto.
    + intros Hsym. apply H5. intros i j Hij. apply Hed in Hij as (Hij & ws & W1 & W2 & W3). apply Hed. split; [auto|].
      exists ws. split; [exact W1|]. split; [exact W2|]. intros w Hw. destruct (W3 w Hw). auto.
Qed.

Lemma krounds_ok T last m T' last' : 2 <= k -> good T -> nnz T = last -> krounds mxm k T last m T' last' ->
  good T' /\ nnz T' = last' /\ m + nnz T' <= nnz T.
Proof.
  intros Hk HG Hl HR. revert HG Hl. induction HR as [T last|T last C m T' last' Hr Hne _ IH]; intros HG Hl; [split; [exact HG|]; split; [exact Hl|lia]|].
  destruct (round_row T C Hk HG Hr) as [HC _]. destruct (round_nnz T C Hk HG Hr) as [Hle _].
  destruct (IH HC eq_refl) as (H1 & H2 & H3). split; [exact H1|]. split; [exact H2|]. lia.
Qed.

Lemma kloop_ex T : 2 <= k -> good T -> exists R st, kloop mxm k T (nnz T) R st.
Proof.
  intros Hk. remember (nnz T) as b eqn:Hb. revert T Hb. induction b as [b IH] using lt_wf_ind. intros T Hb HG.
  destruct (round_ex T HG) as [C HR]. destruct (round_row T C Hk HG HR) as [HC _]. destruct (round_nnz T C Hk HG HR) as [Hle _].
  destruct (decide (nnz C = b)) as [E|E].
  - exists C, 1. apply kstop; assumption.
  - destruct (IH (nnz C) ltac:(lia) C eq_refl HC) as (R & st & HL). exists R, (S st). eapply kmore; eauto.
Qed.
End Round.
