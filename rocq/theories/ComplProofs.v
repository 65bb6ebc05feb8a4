(** Facts about first-occurrence order and complemented rows, shared by the MSA and hash proofs. *)
From stdpp Require Import sorting.
From Verif Require Import Base Spec KernelBase BaseProofs.

Lemma elem_of_first_touch l c : c ∈ first_touch l <-> c ∈ l.
Proof.
  induction l as [|d l IH]; simpl; [reflexivity|].
  rewrite !elem_of_cons, elem_of_list_filter, IH.
  destruct (decide (c = d)); tauto.
Qed.

Lemma NoDup_first_touch l : NoDup (first_touch l).
Proof.
  induction l as [|d l IH]; simpl; [constructor|].
  constructor.
  - rewrite elem_of_list_filter. tauto.
  - apply NoDup_filter, IH.
Qed.

Lemma first_touch_snoc l c : first_touch (l ++ [c]) =
  if decide (c ∈ l) then first_touch l else first_touch l ++ [c].
Proof.
  induction l as [|d l IH]; [|cbn [app first_touch]].
  - rewrite decide_False; [reflexivity|]. intros H; inversion H.
  - rewrite IH. destruct (decide (c ∈ l)) as [Hin|Hin].
    + rewrite decide_True by (right; exact Hin). reflexivity.
    + rewrite filter_app, filter_cons, filter_nil.
      destruct (decide (c = d)) as [->|Hne].
      * rewrite decide_False by tauto. rewrite decide_True by left. rewrite app_nil_r. reflexivity.
      * rewrite decide_True by exact Hne. rewrite decide_False; [reflexivity|].
        rewrite elem_of_cons. tauto.
Qed.

(** Removing one more column from a repetition-free list. *)
Lemma filter_notin_snoc (l done : list nat) c : NoDup l ->
  length (filter (fun x => x ∉ done) l) =
  length (filter (fun x => x ∉ done ++ [c]) l) +
    (if decide (c ∈ l /\ c ∉ done) then 1 else 0).
Proof.
  induction l as [|d l IH]; intros Hnd.
  - rewrite decide_False; [reflexivity|]. intros [H _]; inversion H.
  - apply NoDup_cons in Hnd as [Hnin Hnd]. specialize (IH Hnd).
    rewrite !filter_cons.
    destruct (decide (d ∉ done)) as [H1|H1]; destruct (decide (d ∉ done ++ [c])) as [H2|H2];
      rewrite ?elem_of_app, ?elem_of_list_singleton in H2; cbn [length]; rewrite ?IH.
    + rewrite (decide_ext (c ∈ d :: l /\ c ∉ done) (c ∈ l /\ c ∉ done)); [lia|].
      rewrite elem_of_cons. split; [|tauto]. intros [[->|?] ?]; [|tauto]. exfalso. apply H2. right. reflexivity.
    + assert (d = c) as -> by (destruct (decide (d = c)); [assumption|]; exfalso; apply H2; tauto).
      rewrite (decide_False (P := c ∈ l /\ c ∉ done)) by tauto.
      rewrite (decide_True (P := c ∈ c :: l /\ c ∉ done)); [lia|]. split; [left|exact H1].
    + exfalso. apply H1. intros H. apply H2. left. exact H.
    + rewrite (decide_ext (c ∈ d :: l /\ c ∉ done) (c ∈ l /\ c ∉ done)); [lia|].
      rewrite elem_of_cons. split; [|tauto]. intros [[->|?] ?]; [|tauto]. tauto.
Qed.

Section Rows.
Context {V : Type} (mul add : V -> V -> V).
Notation colval := (colval mul add).
Notation pcols := (fmap (fun p : nat * V * V => fst (fst p))).

(** Mask columns with their values, in mask order. *)
Definition mrow (ps : list (nat * V * V)) (mask : list nat) : list (nat * V) :=
  omap (fun j => (fun v => (j, v)) <$> colval ps j) mask.
Global Arguments mrow : simpl never.

Lemma mrow_cons ps c mask : mrow ps (c :: mask) =
  match colval ps c with Some v => (c, v) :: mrow ps mask | None => mrow ps mask end.
Proof. unfold mrow. simpl. destruct (colval ps c); reflexivity. Qed.

Lemma mrow_masked (A B : csr V) row l :
  mrow (row_prods A B row) l = masked_row mul add (row_entries A row) (row_entries B) l.
Proof.
  induction l as [|c l IH]; [reflexivity|].
  rewrite mrow_cons, colval_entry, IH. unfold masked_row. simpl.
  destruct (entry mul add (row_entries A row) (row_entries B) c); reflexivity.
Qed.

Lemma mrow_spec (A B M : csr V) row :
  mrow (row_prods A B row) (row_cols M row) = spec_row mul add A B M row.
Proof. apply mrow_masked. Qed.

Lemma mrow_cols ps l : (forall j, j ∈ l -> j ∈ pcols ps) -> fst <$> mrow ps l = l.
Proof.
  induction l as [|c l IH]; intros H; [reflexivity|].
  rewrite mrow_cons. destruct (colval ps c) as [v|] eqn:Hc.
  - simpl. f_equal. apply IH. intros j Hj. apply H. right. exact Hj.
  - apply colval_None in Hc. exfalso. apply Hc, H. left.
Qed.

Lemma mrow_elem ps l j v : (j, v) ∈ mrow ps l <-> j ∈ l /\ colval ps j = Some v.
Proof.
  unfold mrow. rewrite elem_of_list_omap. split.
  - intros (x & Hx & Hf). destruct (colval ps x) eqn:E; simpl in Hf; [|discriminate].
    inversion Hf; subst. auto.
  - intros [Hj Hv]. exists j. split; [exact Hj|]. rewrite Hv. reflexivity.
Qed.

(** The two orders in which a complemented row is produced. *)
Definition crow (sorted : bool) (A B M : csr V) (row : nat) : list (nat * V) :=
  mrow (row_prods A B row)
    (if sorted then merge_sort le (compl_cols A B M row) else compl_cols A B M row).

Lemma compl_cols_elem (A B M : csr V) row j :
  j ∈ compl_cols A B M row <-> j ∉ row_cols M row /\ j ∈ pcols (row_prods A B row).
Proof.
  unfold compl_cols. rewrite elem_of_list_filter, elem_of_first_touch.
  rewrite row_prods_cols. reflexivity.
Qed.

Lemma compl_cols_NoDup (A B M : csr V) row : NoDup (compl_cols A B M row).
Proof. apply NoDup_filter, NoDup_first_touch. Qed.

Lemma crow_keys sorted (A B M : csr V) row :
  fst <$> crow sorted A B M row =
    (if sorted then merge_sort le (compl_cols A B M row) else compl_cols A B M row).
Proof.
  unfold crow. apply mrow_cols. intros j Hj.
  assert (j ∈ compl_cols A B M row) as H.
  { destruct sorted; [|exact Hj]. rewrite merge_sort_Permutation in Hj. exact Hj. }
  apply compl_cols_elem in H. tauto.
Qed.

Lemma crow_length sorted (A B M : csr V) row :
  length (crow sorted A B M row) = length (compl_cols A B M row).
Proof.
  rewrite <- (fmap_length fst), crow_keys. destruct sorted; [|reflexivity].
  rewrite merge_sort_Permutation. reflexivity.
Qed.

Lemma crow_is_compl sorted (A B M : csr V) row : is_compl_row mul add A B M row (crow sorted A B M row).
Proof.
  split.
  - rewrite crow_keys. destruct sorted; [rewrite merge_sort_Permutation|]; apply compl_cols_NoDup.
  - intros j v. unfold crow. rewrite mrow_elem. unfold prod_entry. rewrite <- colval_entry.
    assert (j ∈ (if sorted then merge_sort le (compl_cols A B M row) else compl_cols A B M row) <->
            j ∈ compl_cols A B M row) as ->.
    { destruct sorted; [|reflexivity]. rewrite merge_sort_Permutation. reflexivity. }
    rewrite compl_cols_elem. split; [tauto|]. intros [Hm Hv]. repeat split; auto.
    destruct (decide (j ∈ pcols (row_prods A B row))) as [H|H]; [exact H|].
    apply (colval_None mul add) in H. congruence.
Qed.

Lemma StronglySorted_le_lt (l : list nat) : NoDup l -> StronglySorted le l -> StronglySorted lt l.
Proof.
  intros Hnd Hs. induction Hs as [|a l Hs IH Hf]; [constructor|].
  apply NoDup_cons in Hnd as [Hnin Hnd]. constructor; [auto|].
  apply List.Forall_forall. intros x Hx. rewrite List.Forall_forall in Hf. specialize (Hf x Hx).
  assert (a <> x); [|lia]. intros ->. apply Hnin. apply elem_of_list_In. exact Hx.
Qed.

Lemma crow_sorted (A B M : csr V) row : StronglySorted lt (fst <$> crow true A B M row).
Proof.
  rewrite crow_keys. apply StronglySorted_le_lt.
  - rewrite merge_sort_Permutation. apply compl_cols_NoDup.
  - apply StronglySorted_merge_sort; [intros x y z; lia|]. intros x y. lia.
Qed.
End Rows.
