(** Concatenating rows into a compressed-row matrix. *)
From stdpp Require Import numbers gmap.
From Verif Require Import BaseProofs ConcProofs WorkProofs.
From Verif Require Import Base Spec.

Lemma mjoin_length {A} (ll : list (list A)) : length (mjoin ll) = sum_list (length <$> ll).
Proof. induction ll as [|l ll IH]; [reflexivity|]. rewrite mjoin_cons, app_length, IH. reflexivity. Qed.

Lemma seq_split3 a b n : a <= b <= n -> seq 0 n = seq 0 a ++ seq a (b - a) ++ seq b (n - b).
Proof.
  intros H. replace (seq b (n - b)) with (seq (a + (b - a)) (n - b)) by (f_equal; lia).
  rewrite <- seq_app. change (seq a) with (seq (0 + a)). rewrite <- seq_app. f_equal. lia.
Qed.

Lemma zip_fst_snd' {A B} (l : list (A * B)) : zip (fst <$> l) (snd <$> l) = l.
Proof. induction l as [|[a b] l IH]; [reflexivity|]. rewrite !fmap_cons. cbn [zip_with fst snd]. rewrite IH. reflexivity. Qed.

Section Rows.
Context {V : Type} (rspec : nat -> list (nat * V)).

(** Number of entries in the rows before [i]. *)
Definition pre (i : nat) : nat := sum_list ((fun r => length (rspec r)) <$> seq 0 i).
(** Entries of the rows [a, b). *)
Definition rowsOf (a b : nat) : list (nat * V) := mjoin (rspec <$> seq a (b - a)).

Lemma pre_0 : pre 0 = 0.
Proof. reflexivity. Qed.
Lemma pre_S i : pre (S i) = pre i + length (rspec i).
Proof. unfold pre. rewrite seq_S, fmap_app, sum_list_app. simpl. lia. Qed.
Lemma pre_le i j : i <= j -> pre i <= pre j.
Proof. induction 1 as [|j _ IH]; [lia|]. rewrite pre_S. lia. Qed.

Lemma rowsOf_nil a b : b <= a -> rowsOf a b = [].
Proof. intros H. unfold rowsOf. replace (b - a) with 0 by lia. reflexivity. Qed.
Lemma rowsOf_S a b : a <= b -> rowsOf a (S b) = rowsOf a b ++ rspec b.
Proof.
  intros H. unfold rowsOf. replace (S b - a) with (S (b - a)) by lia. rewrite seq_S, fmap_app, mjoin_app.
  replace (a + (b - a)) with b by lia. simpl. rewrite app_nil_r. reflexivity.
Qed.
Lemma rowsOf_length a b : a <= b -> length (rowsOf a b) = pre b - pre a.
Proof.
  induction 1 as [|b Hab IH]; [rewrite rowsOf_nil by lia; simpl; lia|].
  rewrite rowsOf_S by lia. rewrite app_length, IH, pre_S. pose proof (pre_le a b Hab). lia.
Qed.
Lemma rowsOf_split a b n : a <= b <= n -> rowsOf 0 n = rowsOf 0 a ++ rowsOf a b ++ rowsOf b n.
Proof.
  intros H. unfold rowsOf. rewrite !Nat.sub_0_r, (seq_split3 a b n H), !fmap_app, !mjoin_app. reflexivity.
Qed.
Lemma rowsOf_lookup a b n p : a <= b <= n -> pre a <= p < pre b -> rowsOf 0 n !! p = rowsOf a b !! (p - pre a).
Proof.
  intros H Hp. rewrite (rowsOf_split a b n H).
  assert (L1 : length (rowsOf 0 a) = pre a) by (rewrite rowsOf_length, pre_0 by lia; lia).
  assert (L2 : length (rowsOf a b) = pre b - pre a) by (apply rowsOf_length; lia).
  rewrite lookup_app_r by lia. rewrite L1. rewrite lookup_app_l by lia. reflexivity.
Qed.
Lemma rowsOf_row i n : i < n -> take (length (rspec i)) (drop (pre i) (rowsOf 0 n)) = rspec i.
Proof.
  intros H. rewrite (rowsOf_split i (S i) n) by lia.
  assert (L1 : length (rowsOf 0 i) = pre i) by (rewrite rowsOf_length, pre_0 by lia; lia).
  rewrite drop_app_alt by congruence. rewrite rowsOf_S, rowsOf_nil by lia. simpl. apply take_app.
Qed.
Lemma rowsOf_elem n x : x ∈ rowsOf 0 n <-> exists i, i < n /\ x ∈ rspec i.
Proof.
  unfold rowsOf. rewrite Nat.sub_0_r, elem_of_list_join. split.
  - intros (l & Hx & Hl). apply elem_of_list_fmap in Hl as (i & -> & Hi). apply elem_of_seq in Hi. exists i. split; [lia|exact Hx].
  - intros (i & Hi & Hx). exists (rspec i). split; [exact Hx|]. apply elem_of_list_fmap. exists i. split; [reflexivity|]. apply elem_of_seq. lia.
Qed.

(** The matrix with rows [rspec 0 .. rspec (n-1)]. *)
Definition assemble (n ncols : nat) : csr V :=
  mkCsr n ncols (pre n) (pre <$> seq 0 (n + 1)) (fst <$> rowsOf 0 n) (snd <$> rowsOf 0 n).

Lemma assemble_rowptr n nc i : i <= n -> rowptr (assemble n nc) !! i = Some (pre i).
Proof. intros H. simpl. rewrite list_lookup_fmap, lookup_seq_lt by lia. reflexivity. Qed.

Lemma assemble_wf n nc : (forall i c v, i < n -> (c, v) ∈ rspec i -> c < nc) -> wf (assemble n nc).
Proof.
  intros Hc. constructor.
  - simpl. rewrite fmap_length, seq_length. reflexivity.
  - rewrite assemble_rowptr by lia. reflexivity.
  - intros i a b Ha Hb. assert (i + 1 < n + 1) by (apply lookup_lt_Some in Hb; simpl in Hb; rewrite fmap_length, seq_length in Hb; exact Hb).
    rewrite assemble_rowptr in Ha, Hb by lia. injection Ha as <-. injection Hb as <-. apply pre_le. lia.
  - apply assemble_rowptr. simpl. lia.
  - simpl. rewrite fmap_length, rowsOf_length, pre_0 by lia. lia.
  - simpl. rewrite fmap_length, rowsOf_length, pre_0 by lia. lia.
  - simpl. intros p c Hp. rewrite list_lookup_fmap in Hp. destruct (rowsOf 0 n !! p) as [[c' v]|] eqn:E; [|discriminate].
    simpl in Hp. injection Hp as ->. apply elem_of_list_lookup_2, rowsOf_elem in E as (i & Hi & Hx). eauto.
Qed.

Lemma assemble_row n nc i : i < n -> row_entries (assemble n nc) i = rspec i.
Proof.
  intros Hi. unfold row_entries. rewrite !assemble_rowptr by lia. rewrite Nat.add_1_r, pre_S. simpl.
  replace (pre i + length (rspec i) - pre i) with (length (rspec i)) by lia.
  rewrite zip_fst_snd'. apply rowsOf_row, Hi.
Qed.
End Rows.

(** A well-formed matrix is determined by its shape and its rows. *)
Section Ext.
Context {V : Type}.
Lemma wf_pre (C : csr V) i : wf C -> i <= rows C -> rowptr C !! i = Some (pre (row_entries C) i).
Proof.
  intros Hw. induction i as [|i IH]; intros Hi; [rewrite pre_0; apply Hw|].
  specialize (IH ltac:(lia)). destruct (row_bounds_wf C i Hw ltac:(lia)) as (b & e & Hb & He & Hle & _).
  rewrite pre_S, (row_entries_length C i b e Hw ltac:(lia) Hb He). rewrite Hb in IH. injection IH as ->.
  replace (S i) with (i + 1) by lia. rewrite He. f_equal. lia.
Qed.
Lemma wf_rowsOf (C : csr V) i : wf C -> i <= rows C ->
  rowsOf (row_entries C) 0 i = take (pre (row_entries C) i) (zip (colids C) (values C)).
Proof.
  intros Hw. induction i as [|i IH]; intros Hi; [rewrite pre_0, rowsOf_nil by lia; reflexivity|].
  rewrite rowsOf_S by lia. rewrite IH by lia.
  pose proof (wf_pre C i Hw ltac:(lia)) as Hb. pose proof (wf_pre C (S i) Hw ltac:(lia)) as He.
  replace (S i) with (i + 1) in He by lia.
  pose proof (row_entries_eq C i _ _ Hb He) as Hre.
  rewrite <- (take_drop (pre (row_entries C) i) (take (pre (row_entries C) (S i)) _)).
  pose proof (pre_le (row_entries C) i (S i) ltac:(lia)). rewrite take_take, Nat.min_l by lia. f_equal.
  replace (i + 1) with (S i) in Hre by lia. rewrite skipn_firstn_comm. exact Hre.
Qed.
Lemma wf_assemble (C : csr V) : wf C -> C = assemble (row_entries C) (rows C) (cols C).
Proof.
  intros Hw. pose proof (wf_pre C (rows C) Hw ltac:(lia)) as Hn. rewrite (wf_last C Hw) in Hn. injection Hn as Hn.
  assert (Hrp : rowptr C = pre (row_entries C) <$> seq 0 (rows C + 1)).
  { apply list_eq. intros i. rewrite list_lookup_fmap. destruct (Nat.lt_ge_cases i (rows C + 1)) as [Hi|Hi].
    - rewrite lookup_seq_lt by exact Hi. apply wf_pre; [exact Hw|lia].
    - rewrite (lookup_ge_None_2 (seq _ _)) by (rewrite seq_length; lia). apply lookup_ge_None_2. rewrite (wf_len C Hw). lia. }
  pose proof (wf_rowsOf C (rows C) Hw ltac:(lia)) as Hz. rewrite <- Hn, take_ge in Hz by (rewrite zip_length by exact Hw; lia).
  unfold assemble. rewrite Hz, <- Hrp, <- Hn.
  rewrite fst_zip, snd_zip by (rewrite (wf_colids C Hw), (wf_values C Hw); lia). destruct C; reflexivity.
Qed.
Lemma rowsOf_ext (f g : nat -> list (nat * V)) n : (forall i, i < n -> f i = g i) -> rowsOf f 0 n = rowsOf g 0 n.
Proof.
  intros H. unfold rowsOf. rewrite Nat.sub_0_r. f_equal. apply list_fmap_ext. intros i x Hx. apply elem_of_list_lookup_2, elem_of_seq in Hx. apply H. lia.
Qed.
Lemma pre_ext (f g : nat -> list (nat * V)) n : (forall i, i < n -> f i = g i) -> pre f n = pre g n.
Proof.
  induction n as [|n IH]; intros H; [reflexivity|]. rewrite !pre_S, IH, H by (auto; intros; apply H; lia). reflexivity.
Qed.
Lemma assemble_ext (f g : nat -> list (nat * V)) n nc : (forall i, i < n -> f i = g i) -> assemble f n nc = assemble g n nc.
Proof.
  intros H. unfold assemble. rewrite (pre_ext f g n H), (rowsOf_ext f g n H). f_equal.
  apply list_fmap_ext. intros i x Hx. apply elem_of_list_lookup_2, elem_of_seq in Hx. apply pre_ext. intros j Hj. apply H. lia.
Qed.
Lemma wf_ext (C C' : csr V) : wf C -> wf C' -> rows C = rows C' -> cols C = cols C' ->
  (forall i, i < rows C -> row_entries C i = row_entries C' i) -> C = C'.
Proof.
  intros Hw Hw' Hr Hc He. rewrite (wf_assemble C Hw), (wf_assemble C' Hw'), <- Hr, <- Hc. apply assemble_ext, He.
Qed.
End Ext.
(** Row pointers and column ids depend only on the columns of the rows. *)
Lemma assemble_pattern {V W} (f : nat -> list (nat * V)) (g : nat -> list (nat * W)) n nc :
  (forall i, i < n -> fst <$> f i = fst <$> g i) ->
  nnz (assemble f n nc) = nnz (assemble g n nc) /\ rowptr (assemble f n nc) = rowptr (assemble g n nc) /\
  colids (assemble f n nc) = colids (assemble g n nc).
Proof.
  intros H. assert (Hp : forall i, i <= n -> pre f i = pre g i).
  { induction i as [|i IH]; intros Hi; [reflexivity|]. rewrite !pre_S, IH by lia.
    rewrite <- (fmap_length fst (f i)), H, fmap_length by lia. reflexivity. }
  split; [apply Hp; lia|]. split.
  - simpl. apply list_fmap_ext. intros i x Hx. apply elem_of_list_lookup_2, elem_of_seq in Hx. apply Hp. lia.
  - simpl. unfold rowsOf. rewrite Nat.sub_0_r. clear Hp. induction n as [|n IH]; [reflexivity|].
    rewrite seq_S, !fmap_app, !mjoin_app, !fmap_app, IH by (intros; apply H; lia). f_equal. simpl. rewrite !app_nil_r. apply H. lia.
Qed.
