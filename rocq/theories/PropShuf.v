(** C61: shuffleIds permutes every row, can reach every order, and its gaps. *)
From stdpp Require Import list_numbers.
From Verif Require Import BaseProofs Assemble Examples ShufModel ShufSpec ShufProofs.
From Verif Require Import Base Spec.

Section C61.
Context {V : Type}.

(** Whatever is drawn, the shuffle stays inside the arrays, keeps the shape and the pointers, and every row keeps its
    entries (column and value together). *)
Theorem C61_shuffle (signed : bool) draw (X : csr V) : in_range draw -> wf X ->
  (signed = true -> forall i, i < rows X -> row_entries X i <> []) ->
  exists X', shuffleCsr signed draw X = Ok X' /\ wf X' /\ rows X' = rows X /\ cols X' = cols X /\ nnz X' = nnz X /\
    rowptr X' = rowptr X /\ (forall i, i < rows X -> row_entries X' i ≡ₚ row_entries X i).
Proof.
  intros Hd Hw He. eexists. split.
  { apply shuffleCsr_ok; [exact Hd|exact Hw|]. destruct signed; [right; auto|left; reflexivity]. }
  set (f := row_entries X).
  assert (Hp : forall i, shufRow draw f i ≡ₚ f i) by (intros; apply shufs_perm).
  split_and!; try reflexivity.
  - apply assemble_wf. intros i c v Hi Hin. rewrite Hp in Hin. exact (row_entries_range X i c v Hw Hin).
  - rewrite (wf_assemble X Hw). fold f. cbn [nnz assemble]. apply pre_shufRow.
  - pose proof (f_equal rowptr (wf_assemble X Hw)) as E. rewrite E. cbn [rowptr assemble].
    apply list_fmap_ext. intros i x _. apply pre_shufRow.
  - intros i Hi. rewrite assemble_row by exact Hi. apply Hp.
Qed.

Lemma shuffleCsc_tr (signed : bool) draw (X : csc V) :
  shuffleCsr signed draw (csc_tr X) = (Y <- shuffleCsc signed draw X ;; Ok (csc_tr Y)).
Proof.
  unfold shuffleCsr, shuffleCsc. cbn [csc_tr rows rowptr colids values].
  destruct (shuffleArrays _ _ _ _ _ _) as [[ids vals]|]; reflexivity.
Qed.
Lemma csc_tr_inv (Y : csr V) : exists Z, csc_tr Z = Y.
Proof. destruct Y as [r c n p i v]. exists (mkCsc c r n p i v). reflexivity. Qed.

(** The same for compressed columns. *)
Theorem C61_shuffle_csc (signed : bool) draw (X : csc V) : in_range draw -> wf_csc X ->
  (signed = true -> forall j, j < c_cols X -> col_entries X j <> []) ->
  exists X', shuffleCsc signed draw X = Ok X' /\ wf_csc X' /\ c_rows X' = c_rows X /\ c_cols X' = c_cols X /\ c_nnz X' = c_nnz X /\
    colptr X' = colptr X /\ (forall j, j < c_cols X -> col_entries X' j ≡ₚ col_entries X j).
Proof.
  intros Hd Hw He. destruct (C61_shuffle signed draw (csc_tr X) Hd Hw He) as (Y & HY & H).
  rewrite shuffleCsc_tr in HY. destruct (shuffleCsc signed draw X) as [X'|]; [|discriminate]. injection HY as <-.
  exists X'. split; [reflexivity|]. destruct H as (H1 & H2 & H3 & H4 & H5 & H6). split_and!; assumption.
Qed.

(** Every order of the entries inside the rows is the outcome of some draws. *)
Theorem C61_every_order (signed : bool) (X X' : csr V) : wf X -> wf X' -> rows X' = rows X -> cols X' = cols X ->
  (forall i, i < rows X -> row_entries X' i ≡ₚ row_entries X i) ->
  (signed = true -> forall i, i < rows X -> row_entries X i <> []) ->
  exists draw, in_range draw /\ shuffleCsr signed draw X = Ok X'.
Proof.
  intros Hw Hw' Hr Hc Hp He. destruct (shuffle_reach X X' Hw Hw' Hr Hc Hp) as (draw & Hd & E). exists draw. split; [exact Hd|].
  rewrite <- E. apply shuffleCsr_ok; [exact Hd|exact Hw|]. destruct signed; [right; auto|left; reflexivity].
Qed.

(** FINDING.  With a signed index type (int32_t in sample/OuterSpGEMM.cpp, int in sample/HashSpGEMM.cpp) a matrix with
    an empty row violates the precondition of uniform_int_distribution: the range is [0, -1]. *)
Theorem C61_signed_refuted draw (X : csr V) : in_range draw -> wf X -> (exists i, i < rows X /\ row_entries X i = []) ->
  shuffleCsr true draw X = Err AssertFail.
Proof. apply shuffle_signed. Qed.
End C61.

(** Counting the outcomes. *)
Lemma count_partition {A B} `{EqDecision B} (f : A -> B) (l : list A) (ps : list B) : NoDup ps -> (forall x, x ∈ l -> f x ∈ ps) ->
  length l = sum_list ((fun p => length (filter (fun x => f x = p) l)) <$> ps).
Proof.
  intros Hn. induction l as [|x l IH]; intros H.
  - clear. induction ps as [|p ps IH]; [reflexivity|]. rewrite fmap_cons. simpl. exact IH.
  - simpl length. rewrite IH by (intros; apply H; right; assumption).
    assert (Hx : f x ∈ ps) by (apply H; left).
    clear IH H. induction ps as [|p ps IHp]; [inversion Hx|]. apply NoDup_cons in Hn as [Hp Hn].
    rewrite !fmap_cons. cbn [sum_list foldr]. rewrite !filter_cons. destruct (decide (f x = p)) as [E|E].
    + simpl. f_equal. f_equal. f_equal. apply list_fmap_ext. intros i q Hq. apply elem_of_list_lookup_2 in Hq.
      rewrite filter_cons. destruct (decide (f x = q)) as [E2|E2]; [congruence|reflexivity].
    + apply elem_of_cons in Hx as [Hx|Hx]; [congruence|]. specialize (IHp Hn Hx).
      change (foldr Nat.add 0 ?q) with (sum_list q) in *. simpl in *. lia.
Qed.

(** All orders of a list. *)
Definition insAt {A} (x : A) (p : list A) (i : nat) : list A := take i p ++ x :: drop i p.
Fixpoint perms {A} (l : list A) : list (list A) :=
  match l with
  | [] => [[]]
  | x :: l => mjoin ((fun p => insAt x p <$> seq 0 (S (length l))) <$> perms l)
  end.
Lemma perms_perm {A} (l p : list A) : p ∈ perms l <-> p ≡ₚ l.
Proof.
  revert p. induction l as [|x l IH]; intros p; cbn [perms].
  - rewrite elem_of_list_singleton. split; [intros ->; reflexivity|apply Permutation_nil_r].
  - rewrite elem_of_list_join. split.
    + intros (q & Hp & Hq). apply elem_of_list_fmap in Hq as (r & -> & Hr). apply IH in Hr.
      apply elem_of_list_fmap in Hp as (i & -> & _). unfold insAt. rewrite <- Permutation_middle, take_drop. rewrite Hr. reflexivity.
    + intros H. assert (Hx : x ∈ p) by (rewrite H; left). apply elem_of_list_split in Hx as (a & b & ->).
      rewrite <- Permutation_middle in H. apply Permutation_cons_inv in H.
      exists (insAt x (a ++ b) <$> seq 0 (S (length l))). split.
      * apply elem_of_list_fmap. exists (length a). split; [unfold insAt; rewrite take_app, drop_app; reflexivity|].
        apply elem_of_seq. apply Permutation_length in H. rewrite app_length in H. lia.
      * apply elem_of_list_fmap. exists (a ++ b). split; [reflexivity|apply IH, H].
Qed.
Lemma perms_length {A} (l : list A) : length (perms l) = fact (length l).
Proof.
  induction l as [|x l IH]; [reflexivity|]. cbn [perms length fact]. rewrite mjoin_length, <- list_fmap_compose.
  rewrite <- IH. generalize (perms l) as ps. intros ps. induction ps as [|p ps IHp]; [simpl; lia|].
  rewrite fmap_cons. cbn [sum_list foldr compose]. change (foldr Nat.add 0 ?q) with (sum_list q).
  unfold id. rewrite fmap_length, seq_length. etrans; [apply (f_equal (Nat.add _)), IHp|]. simpl. lia.
Qed.
Lemma insAt_filter {A} `{EqDecision A} (x : A) p i : x ∉ p -> filter (fun y => y <> x) (insAt x p i) = p.
Proof.
  intros H. unfold insAt. rewrite filter_app, filter_cons_False by tauto. rewrite <- filter_app, take_drop.
  induction p as [|y p IH]; [reflexivity|]. apply not_elem_of_cons in H as [H1 H2]. rewrite filter_cons_True by congruence. f_equal. apply IH, H2.
Qed.
Lemma insAt_inj {A} (x : A) p i j : x ∉ p -> i <= length p -> j <= length p -> insAt x p i = insAt x p j -> i = j.
Proof.
  intros Hx Hi Hj E.
  assert (G : forall i j, i < j -> j <= length p -> insAt x p i <> insAt x p j).
  { clear E i j Hi Hj. intros i j Hij Hj E. assert (H1 : insAt x p i !! i = Some x).
    { unfold insAt. rewrite lookup_app_r by (rewrite take_length; lia). rewrite take_length. replace (i - _) with 0 by lia. reflexivity. }
    rewrite E in H1. unfold insAt in H1. rewrite lookup_app_l in H1 by (rewrite take_length; lia).
    apply Hx. rewrite lookup_take in H1 by lia. eapply elem_of_list_lookup_2; exact H1. }
  destruct (Nat.lt_trichotomy i j) as [H|[H|H]]; [exfalso; exact (G i j H Hj E)|exact H|exfalso; exact (G j i H Hi (eq_sym E))].
Qed.
Lemma perms_NoDup {A} `{EqDecision A} (l : list A) : NoDup l -> NoDup (perms l).
Proof.
  induction l as [|x l IH]; intros H; [apply NoDup_singleton|]. apply NoDup_cons in H as [Hx Hl]. specialize (IH Hl). cbn [perms].
  assert (Hin : forall p, p ∈ perms l -> x ∉ p /\ length p = length l).
  { intros p Hp. apply perms_perm in Hp. split; [rewrite Hp; exact Hx|apply Permutation_length, Hp]. }
  revert IH Hin. generalize (perms l) as ps. generalize (length l) as n. clear l Hx Hl. intros n ps. induction ps as [|p ps IHp]; intros Hn Hin; [constructor|].
  rewrite fmap_cons, mjoin_cons. apply NoDup_cons in Hn as [Hp Hn]. destruct (Hin p ltac:(left)) as [Hxp Hlp].
  apply NoDup_app. split_and!.
  - apply NoDup_fmap_2_strong; [|apply NoDup_seq]. intros i j Hi Hj E. apply elem_of_seq in Hi, Hj. apply (insAt_inj x p i j Hxp); [lia|lia|exact E].
  - intros q Hq Hq2. apply elem_of_list_fmap in Hq as (i & -> & _). apply elem_of_list_join in Hq2 as (r & Hq2 & Hr).
    apply elem_of_list_fmap in Hr as (p2 & -> & Hp2). apply elem_of_list_fmap in Hq2 as (j & E & _).
    destruct (Hin p2 ltac:(right; exact Hp2)) as [Hx2 _].
    apply (f_equal (filter (fun y => y <> x))) in E. rewrite !insAt_filter in E by assumption. subst p2. contradiction.
  - apply IHp; [exact Hn|]. intros q Hq. apply Hin. right. exact Hq.
Qed.

Lemma tuples_elem b n t : t ∈ tuples b n <-> length t = n /\ Forall (fun x => x < b) t.
Proof.
  revert t. induction n as [|n IH]; intros t; cbn [tuples].
  - rewrite elem_of_list_singleton. split; [intros ->; split; [reflexivity|constructor]|intros [H _]; destruct t; [reflexivity|discriminate]].
  - rewrite elem_of_list_join. split.
    + intros (q & Ht & Hq). apply elem_of_list_fmap in Hq as (x & -> & Hx). apply elem_of_list_fmap in Ht as (u & -> & Hu).
      apply elem_of_seq in Hx. apply IH in Hu as [H1 H2]. split; [simpl; lia|constructor; [lia|exact H2]].
    + intros [H1 H2]. destruct t as [|x t]; [discriminate|]. apply Forall_cons in H2 as [Hx H2]. injection H1 as H1.
      exists ((fun t => x :: t) <$> tuples b n). split; apply elem_of_list_fmap; [exists t|exists x]; (split; [reflexivity|]).
      * apply IH. split; assumption.
      * apply elem_of_seq. lia.
Qed.
Lemma tuples_length b n : length (tuples b n) = b ^ n.
Proof.
  induction n as [|n IH]; [reflexivity|]. cbn [tuples]. rewrite mjoin_length, <- list_fmap_compose, Nat.pow_succ_r', <- IH.
  clear IH. generalize (tuples b n) as ts. intros ts. generalize 0 as a. induction b as [|b IHb]; intros a; [reflexivity|].
  cbn [seq]. rewrite fmap_cons. cbn [sum_list foldr compose]. change (foldr Nat.add 0 ?q) with (sum_list q). unfold id. rewrite fmap_length.
  etrans; [apply (f_equal (Nat.add _)), IHb|]. reflexivity.
Qed.

Definition resIds {V} (r : res (csr V)) : list nat := match r with Ok X => colids X | Err _ => [] end.
(** A matrix of one row with entries in the columns 0 .. n-1. *)
Definition oneRow (n : nat) : csr nat := mkCsr 1 n n [0; n] (seq 0 n) (seq 0 n).

Lemma sum_const {A} (f : A -> nat) c (l : list A) : (forall x, x ∈ l -> f x = c) -> sum_list (f <$> l) = length l * c.
Proof.
  induction l as [|x l IH]; intros H; [reflexivity|]. rewrite fmap_cons. cbn [sum_list foldr length]. change (foldr Nat.add 0 ?q) with (sum_list q).
  rewrite IH by (intros; apply H; right; assumption). unfold id. rewrite H by left. lia.
Qed.
Lemma coprime_pow a n : Nat.divide a (S a ^ n) -> a = 1.
Proof.
  induction n as [|n IH]; intros H.
  - apply Nat.divide_1_r in H. exact H.
  - rewrite Nat.pow_succ_r' in H. apply IH. apply (Nat.gauss a (S a)); [exact H|].
    rewrite Nat.gcd_comm. replace (S a) with (1 + 1 * a) by lia. rewrite Nat.gcd_comm, Nat.gcd_add_mult_diag_r. apply Nat.gcd_1_r.
Qed.

Lemma oneRow_wf n : wf (oneRow n).
Proof.
  constructor; simpl; try reflexivity; rewrite ?seq_length; try reflexivity.
  - intros [|[|i]] a b Ha Hb; simpl in *; try discriminate. injection Ha as <-. injection Hb as <-. lia.
  - intros p c Hp. apply lookup_seq in Hp. lia.
Qed.

(** FINDING.  The shuffle is not fair: in a row of three or more entries the orders do not all come from the same number
    of sequences of draws (n^n sequences for n! orders), so with independent uniform draws they are not equally likely. *)
Theorem C61_fair_refuted (n : nat) : 3 <= n ->
  ~ exists c, forall order, order ≡ₚ seq 0 n ->
      length (filter (fun t => resIds (shuffleCsr false (fromList t) (oneRow n)) = order) (tuples n n)) = c.
Proof.
  intros Hn [c Hc].
  pose proof (count_partition (fun t => resIds (shuffleCsr false (fromList t) (oneRow n))) (tuples n n) (perms (seq 0 n))
    (perms_NoDup _ (NoDup_seq 0 n))) as H.
  rewrite sum_const with (c := c) in H by (intros p Hp; apply Hc, perms_perm, Hp).
  rewrite tuples_length, perms_length, seq_length in H.
  assert (Hin : forall t, t ∈ tuples n n -> resIds (shuffleCsr false (fromList t) (oneRow n)) ∈ perms (seq 0 n)).
  { intros t Ht. apply perms_perm.
    destruct (C61_shuffle false (fromList t) (oneRow n)) as (X' & -> & Hw & Hr & _ & _ & _ & HX);
      [intros k b; unfold fromList; lia|apply oneRow_wf|discriminate|].
    specialize (HX 0 ltac:(simpl; lia)). cbn [resIds]. apply (fmap_Permutation fst) in HX.
    pose proof (f_equal colids (wf_assemble X' Hw)) as E1. pose proof (f_equal colids (wf_assemble (oneRow n) (oneRow_wf n))) as E2.
    cbn [assemble colids] in E1, E2. rewrite Hr in E1. cbn [oneRow rows] in E1, E2.
    rewrite (rowsOf_S _ 0 0), rowsOf_nil in E1 by lia. rewrite (rowsOf_S _ 0 0), rowsOf_nil in E2 by lia. cbn [app] in E1, E2.
    rewrite E1, HX. fold (oneRow n) in E2. rewrite <- E2. reflexivity. }
  specialize (H Hin).
  destruct n as [|[|n]]; [lia|lia|].
  assert (D : Nat.divide (S n) (S (S n) ^ S (S n))).
  { rewrite H. exists (S (S n) * fact n * c). cbn [fact]. lia. }
  apply coprime_pow in D. lia.
Qed.

(** A matrix with rows of three and two entries, and one with an empty row. *)
Definition shufEx : csr nat := mkCsr 2 4 5 [0; 3; 5] [0; 2; 3; 1; 2] [10; 12; 13; 21; 22].
Definition shufGap : csr nat := mkCsr 3 4 5 [0; 3; 3; 5] [0; 2; 3; 1; 2] [10; 12; 13; 21; 22].
Example C61_inputs : wf shufEx /\ (forall i, i < rows shufEx -> row_entries shufEx i <> []) /\ in_range (fromList [2; 0; 1; 1; 0]) /\
  wf shufGap /\ (exists i, i < rows shufGap /\ row_entries shufGap i = []).
Proof.
  split_and!.
  - prove_wf.
  - intros [|[|i]] Hi; simpl in Hi; [discriminate..|lia].
  - intros k b. unfold fromList. lia.
  - prove_wf.
  - exists 1. split; [simpl; lia|reflexivity].
Qed.
Example C61_inputs_csc : wf_csc (mkCsc 4 2 5 [0; 3; 5] [0; 2; 3; 1; 2] [10; 12; 13; 21; 22]) /\
  shuffleCsc true (fromList [2; 0; 1; 1; 0]) (mkCsc 4 2 5 [0; 3; 5] [0; 2; 3; 1; 2] [10; 12; 13; 21; 22]) =
    Ok (mkCsc 4 2 5 [0; 3; 5] [2; 0; 3; 1; 2] [12; 10; 13; 21; 22]).
Proof. split; [unfold wf_csc, csc_tr; cbn; prove_wf|vm_compute; reflexivity]. Qed.
(** The draws 2 0 1 in the first and 1 0 in the second row. *)
Example C61_run : shuffleCsr true (fromList [2; 0; 1; 1; 0]) shufEx = Ok (mkCsr 2 4 5 [0; 3; 5] [2; 0; 3; 1; 2] [12; 10; 13; 21; 22]).
Proof. vm_compute. reflexivity. Qed.
Example C61_run_gap : shuffleCsr false (fromList [2; 0; 1; 1; 1]) shufGap = Ok (mkCsr 3 4 5 [0; 3; 3; 5] [2; 0; 3; 2; 1] [12; 10; 13; 22; 21]).
Proof. vm_compute. reflexivity. Qed.
(** The six orders of three entries come from 4, 5, 5, 5, 4 and 4 of the 27 sequences. *)
Example C61_three : (fun order => length (filter (fun t => resIds (shuffleCsr false (fromList t) (oneRow 3)) = order) (tuples 3 3))) <$> perms (seq 0 3) =
  [4; 5; 5; 5; 4; 4].
Proof. vm_compute. reflexivity. Qed.

Print Assumptions C61_shuffle.
Print Assumptions C61_shuffle_csc.
Print Assumptions C61_every_order.
Print Assumptions C61_signed_refuted.
Print Assumptions C61_fair_refuted.
