(** Proofs about submatrices. *)
From stdpp Require Import numbers list_numbers.
From Verif Require Import MatModel BaseProofs Assemble MatProofs BitSpec BitProofs RefModel RefSpec.
From Verif Require Import Base Spec.

Section Ref.
Context {V : Type} (dflt : V).
Notation ent := (nat * V)%type.

(** Lists. *)
Lemma filter_none {A} (P : A -> Prop) `{forall x, Decision (P x)} (l : list A) : (forall x, x ∈ l -> ~ P x) -> filter P l = [].
Proof.
  induction l as [|x l IH]; intros Hn; [reflexivity|]. rewrite filter_cons_False by (apply Hn; left). apply IH. intros y Hy. apply Hn. right. exact Hy.
Qed.
Lemma sorted_head (e : ent) (l : list ent) : StronglySorted lt (fst <$> e :: l) -> StronglySorted lt (fst <$> l) /\ forall x, x ∈ l -> fst e < fst x.
Proof.
  rewrite fmap_cons. intros H. apply StronglySorted_inv in H as [H1 H2]. split; [exact H1|]. intros x Hx. rewrite Forall_forall in H2. apply H2.
  apply elem_of_list_fmap. eauto.
Qed.
Lemma le_head r (l : list nat) : StronglySorted le (r :: l) -> StronglySorted le l /\ forall x, x ∈ l -> r <= x.
Proof. intros H. apply StronglySorted_inv in H as [H1 H2]. split; [exact H1|]. rewrite Forall_forall in H2. exact H2. Qed.

Lemma picked_lt r ri (e : ent) col : StronglySorted lt (fst <$> e :: col) -> r < fst e -> picked (r :: ri) (e :: col) = picked ri (e :: col).
Proof.
  intros Hs Hr. apply sorted_head in Hs as [_ Hs]. unfold picked. rewrite fmap_cons, mjoin_cons. rewrite filter_none; [reflexivity|].
  intros x Hx. apply elem_of_cons in Hx as [->|Hx]; [lia|]. specialize (Hs x Hx). lia.
Qed.
Lemma picked_gt r ri (e : ent) col : StronglySorted le (r :: ri) -> fst e < r -> picked (r :: ri) (e :: col) = picked (r :: ri) col.
Proof.
  intros Hs Hr. apply le_head in Hs as [_ Hs]. unfold picked. f_equal. apply list_fmap_ext. intros i x Hx. apply elem_of_list_lookup_2 in Hx.
  rewrite filter_cons_False; [reflexivity|]. apply elem_of_cons in Hx as [->|Hx]; [lia|]. specialize (Hs x Hx). lia.
Qed.
Lemma picked_eq ri (e : ent) col : StronglySorted lt (fst <$> e :: col) -> picked (fst e :: ri) (e :: col) = e :: picked ri (e :: col).
Proof.
  intros Hs. apply sorted_head in Hs as [_ Hs]. unfold picked. rewrite fmap_cons, mjoin_cons. rewrite filter_cons_True by reflexivity. rewrite filter_none; [reflexivity|].
  intros x Hx. specialize (Hs x Hx). lia.
Qed.
Lemma picked_nil_l col : picked [] col = [] :> list ent.
Proof. reflexivity. Qed.
Lemma picked_nil_r ri : picked ri [] = [] :> list ent.
Proof. unfold picked. induction ri as [|r ri IH]; [reflexivity|]. rewrite fmap_cons, mjoin_cons, IH. reflexivity. Qed.

Lemma filter_ext {A} (P Q : A -> Prop) `{forall x, Decision (P x)} `{forall x, Decision (Q x)} (l : list A) :
  (forall x, x ∈ l -> (P x <-> Q x)) -> filter P l = filter Q l.
Proof.
  induction l as [|x l IH]; intros HPQ; [reflexivity|]. rewrite !filter_cons. rewrite IH by (intros y Hy; apply HPQ; right; exact Hy).
  pose proof (HPQ x ltac:(left)). destruct (decide (P x)), (decide (Q x)); tauto.
Qed.
Lemma rows_in_lt r ri (e : ent) col : StronglySorted lt (fst <$> e :: col) -> r < fst e -> rows_in (r :: ri) (e :: col) = rows_in ri (e :: col).
Proof.
  intros Hs Hr. apply sorted_head in Hs as [_ Hs]. apply filter_ext. intros x Hx. rewrite elem_of_cons. assert (r < fst x).
  { apply elem_of_cons in Hx as [->|Hx]; [lia|]. specialize (Hs x Hx). lia. }
  split; [intros [|]; [lia|assumption]|tauto].
Qed.
Lemma rows_in_gt r ri (e : ent) col : StronglySorted le (r :: ri) -> fst e < r -> rows_in (r :: ri) (e :: col) = rows_in (r :: ri) col.
Proof.
  intros Hs Hr. apply le_head in Hs as [_ Hs]. unfold rows_in. apply filter_cons_False. intros H. apply elem_of_cons in H as [H|H]; [lia|]. specialize (Hs _ H). lia.
Qed.
Lemma rows_in_eq ri (e : ent) col : StronglySorted lt (fst <$> e :: col) -> rows_in (fst e :: ri) (e :: col) = e :: rows_in ri col.
Proof.
  intros Hs. apply sorted_head in Hs as [_ Hs]. unfold rows_in. rewrite filter_cons_True by left. f_equal. apply filter_ext. intros x Hx. specialize (Hs x Hx).
  rewrite elem_of_cons. split; [intros [|]; [lia|assumption]|tauto].
Qed.
Lemma rows_in_nil_l col : rows_in [] col = [] :> list ent.
Proof. apply filter_none. intros x _ H. inversion H. Qed.

Lemma drop_sorted k (l : list nat) : StronglySorted le l -> StronglySorted le (drop k l).
Proof. revert l. induction k as [|k IH]; intros l H; [exact H|]. destruct l as [|x l]; [constructor|]. simpl. apply IH. apply StronglySorted_inv in H. apply H. Qed.

(** The segment of an array of entries from j to e. *)
Definition seg (Z : list ent) (j e : nat) : list ent := take (e - j) (drop j Z).
Lemma seg_nil Z j e : e <= j -> seg Z j e = [].
Proof. intros H. unfold seg. replace (e - j) with 0 by lia. reflexivity. Qed.
Lemma seg_cons Z j e x : j < e -> Z !! j = Some x -> seg Z j e = x :: seg Z (j + 1) e.
Proof.
  intros H Hx. unfold seg. replace (e - j) with (S (e - (j + 1))) by lia. rewrite (take_drop_S _ _ _ _ Hx). replace (S j) with (j + 1) by lia. reflexivity.
Qed.

Lemma seg_lookup (X : csc V) j x : zip (rowids X) (c_values X) !! j = Some x -> rowids X !! j = Some (fst x) /\ c_values X !! j = Some (snd x).
Proof. intros H. apply lookup_zip_with_Some in H as (a & b & -> & Ha & Hb). auto. Qed.

(** The output arrays after the entries [L]. *)
Definition outp (nz : nat) (L : list ent) : nat * list nat * list V :=
  (length L, (fst <$> L) ++ replicate (nz - length L) 0, (snd <$> L) ++ replicate (nz - length L) dflt).
Lemma put {A B} (g : A -> B) d (L : list A) nz x : length L < nz ->
  set_ ((g <$> L) ++ replicate (nz - length L) d) (length L) (g x) = Ok ((g <$> L ++ [x]) ++ replicate (nz - length (L ++ [x])) d).
Proof.
  intros H. rewrite set_Ok by (rewrite app_length, fmap_length, replicate_length; lia). f_equal.
  rewrite insert_app_r_alt by (rewrite fmap_length; lia). rewrite fmap_length, Nat.sub_diag, fmap_app, <- app_assoc. f_equal.
  rewrite app_length. simpl. replace (nz - length L) with (S (nz - (length L + 1))) by lia. reflexivity.
Qed.

Lemma refCount_ok (X : csc V) ri endIdx : endIdx <= length (zip (rowids X) (c_values X)) ->
  forall fuel j k n, StronglySorted le (drop k ri) -> StronglySorted lt (fst <$> seg (zip (rowids X) (c_values X)) j endIdx) ->
  endIdx - j + (length ri - k) < fuel ->
  refCount fuel X ri j k endIdx n = Ok (n + length (picked (drop k ri) (seg (zip (rowids X) (c_values X)) j endIdx))).
Proof.
  intros He. induction fuel as [|fuel IH]; intros j k n Hr Hc Hf; [lia|]. cbn [refCount].
  destruct (Nat.ltb_spec j endIdx) as [Hj|Hj]; [|cbn [andb]; rewrite seg_nil, picked_nil_r by lia; simpl; f_equal; lia].
  destruct (Nat.ltb_spec k (length ri)) as [Hk|Hk]; cbn [andb]; [|rewrite drop_ge by lia; rewrite picked_nil_l; simpl; f_equal; lia].
  destruct (lookup_lt_is_Some_2 ri k Hk) as [r Hr0]. destruct (lookup_lt_is_Some_2 (zip (rowids X) (c_values X)) j ltac:(lia)) as [x Hx].
  destruct (seg_lookup X j x Hx) as [Hx1 Hx2].
  rewrite (get_Some _ _ _ Hr0), bind_Ok, (get_Some _ _ _ Hx1), bind_Ok.
  rewrite (seg_cons _ _ _ _ Hj Hx) in Hc |- *. rewrite (drop_S _ _ _ Hr0) in Hr |- *.
  destruct (Nat.ltb_spec r (fst x)) as [H1|H1]; [|destruct (Nat.ltb_spec (fst x) r) as [H2|H2]].
  - replace (k + 1) with (S k) by lia. rewrite IH; [|apply (le_head r), Hr|rewrite (seg_cons _ _ _ _ Hj Hx); exact Hc|lia].
    rewrite picked_lt by assumption. rewrite (seg_cons _ _ _ _ Hj Hx). reflexivity.
  - rewrite IH; [|rewrite (drop_S _ _ _ Hr0); exact Hr|apply (sorted_head x), Hc|lia]. rewrite picked_gt by assumption. rewrite (drop_S _ _ _ Hr0). reflexivity.
  - assert (r = fst x) by lia. subst r. replace (k + 1) with (S k) by lia. rewrite IH; [|apply (le_head (fst x)), Hr|rewrite (seg_cons _ _ _ _ Hj Hx); exact Hc|lia].
    rewrite picked_eq by assumption. rewrite (seg_cons _ _ _ _ Hj Hx). f_equal. simpl. lia.
Qed.

Lemma refFill_ok (X : csc V) ri endIdx nz : endIdx <= length (zip (rowids X) (c_values X)) ->
  forall fuel j k L, StronglySorted le (drop k ri) -> StronglySorted lt (fst <$> seg (zip (rowids X) (c_values X)) j endIdx) ->
  endIdx - j + (length ri - k) < fuel ->
  length L + length (picked (drop k ri) (seg (zip (rowids X) (c_values X)) j endIdx)) <= nz ->
  refFill fuel X ri j k endIdx (outp nz L) = Ok (outp nz (L ++ picked (drop k ri) (seg (zip (rowids X) (c_values X)) j endIdx))).
Proof.
  intros He. induction fuel as [|fuel IH]; intros j k L Hr Hc Hf Hn; [lia|]. cbn [refFill].
  destruct (Nat.ltb_spec j endIdx) as [Hj|Hj]; [|cbn [andb]; rewrite seg_nil, picked_nil_r, app_nil_r by lia; reflexivity].
  destruct (Nat.ltb_spec k (length ri)) as [Hk|Hk]; cbn [andb]; [|rewrite drop_ge by lia; rewrite picked_nil_l, app_nil_r; reflexivity].
  destruct (lookup_lt_is_Some_2 ri k Hk) as [r Hr0]. destruct (lookup_lt_is_Some_2 (zip (rowids X) (c_values X)) j ltac:(lia)) as [x Hx].
  destruct (seg_lookup X j x Hx) as [Hx1 Hx2].
  rewrite (get_Some _ _ _ Hr0), bind_Ok, (get_Some _ _ _ Hx1), bind_Ok.
  rewrite (seg_cons _ _ _ _ Hj Hx) in Hc, Hn |- *. rewrite (drop_S _ _ _ Hr0) in Hr, Hn |- *.
  destruct (Nat.ltb_spec r (fst x)) as [H1|H1]; [|destruct (Nat.ltb_spec (fst x) r) as [H2|H2]].
  - rewrite picked_lt in Hn |- * by assumption. rewrite <- (seg_cons _ _ _ _ Hj Hx) in Hc, Hn |- *. replace (k + 1) with (S k) by lia.
    apply IH; [apply (le_head r), Hr|exact Hc|lia|exact Hn].
  - rewrite picked_gt in Hn |- * by assumption. rewrite <- (drop_S _ _ _ Hr0) in Hr, Hn |- *.
    apply IH; [exact Hr|apply (sorted_head x), Hc|lia|exact Hn].
  - assert (r = fst x) by lia. subst r. rewrite picked_eq in Hn |- * by assumption. simpl in Hn.
    unfold outp at 1. rewrite (get_Some _ _ _ Hx2), bind_Ok, (put snd dflt L nz x) by lia. rewrite bind_Ok, (put fst 0 L nz x) by lia. rewrite bind_Ok.
    replace (length L + 1) with (length (L ++ [x])) by (rewrite app_length; reflexivity).
    change (length (L ++ [x]), _, _) with (outp nz (L ++ [x])).
    rewrite <- (seg_cons _ _ _ _ Hj Hx) in Hc, Hn |- *. replace (k + 1) with (S k) by lia. rewrite (cons_middle x L (picked _ _)), (app_assoc L).
    apply IH; [apply (le_head (fst x)), Hr|exact Hc|lia|rewrite app_length; simpl; lia].
Qed.

(** The loops over the columns. *)
Section Cols.
Context (X : csc V) (ci : list nat) (f : list ent -> list ent).
Definition chosen (i : nat) : list ent := f (col_entries X (default 0 (ci !! i))).

Lemma col_bounds (Hw : wf_csc X) (Hci : Forall (fun c => c < c_cols X) ci) i : i < length ci -> exists c b e, ci !! i = Some c /\ c < c_cols X /\ colptr X !! c = Some b /\ colptr X !! (c + 1) = Some e /\
  b <= e /\ e <= length (zip (rowids X) (c_values X)) /\ col_entries X c = seg (zip (rowids X) (c_values X)) b e /\ chosen i = f (col_entries X c).
Proof.
  intros Hi. destruct (lookup_lt_is_Some_2 ci i Hi) as [c Hc]. pose proof (Forall_lookup_1 _ _ _ _ Hci Hc) as Hlt.
  destruct (row_bounds_wf (csc_tr X) c Hw Hlt) as (b & e & Hb & He & Hle & Hn & _). exists c, b, e. cbn [csc_tr rowptr nnz] in *.
  pose proof (zip_length (csc_tr X) Hw) as Hz. cbn [csc_tr colids values nnz] in Hz. rewrite Hz. split_and!; try assumption.
  - unfold col_entries. rewrite (row_entries_eq (csc_tr X) c b e Hb He). reflexivity.
  - unfold chosen. rewrite Hc. reflexivity.
Qed.

Lemma count_cols (body : nat -> nat -> res nat) :
  (forall i n, i < length ci -> body i n = Ok (n + length (chosen i))) -> for_ 0 (length ci) body 0 = Ok (pre chosen (length ci)).
Proof.
  intros H. destruct (for_inv (fun i n => n = pre chosen i) body 0 (length ci) 0) as (s & -> & ->); [lia|reflexivity| |reflexivity].
  intros i s Hi ->. rewrite H by lia. eexists. split; [reflexivity|]. rewrite Nat.add_1_r, pre_S. reflexivity.
Qed.

Definition cps (n i : nat) : list nat := (pre chosen <$> seq 0 (S i)) ++ replicate (n - i) 0.
Lemma cps_set n i : i < n -> set_ (cps n i) (i + 1) (pre chosen (S i)) = Ok (cps n (S i)).
Proof.
  intros H. unfold cps. pose proof (put (pre chosen) 0 (seq 0 (S i)) (S n) (S i)) as P. rewrite app_length, seq_length in P. simpl length in P.
  replace (S n - S i) with (n - i) in P by lia. replace (S n - (S i + 1)) with (n - S i) in P by lia. replace (i + 1) with (S i) by lia.
  rewrite P by lia. do 3 f_equal. rewrite (seq_S (S i)). reflexivity.
Qed.
Lemma cps_all n : cps n n = pre chosen <$> seq 0 (n + 1).
Proof. unfold cps. rewrite Nat.sub_diag, app_nil_r, Nat.add_1_r. reflexivity. Qed.

Lemma fill_cols (body : nat -> list nat * (nat * list nat * list V) -> res (list nat * (nat * list nat * list V))) :
  let n := length ci in let nz := pre chosen n in
  (forall i cp L, i < n -> length L + length (chosen i) <= nz ->
    body i (cp, outp nz L) = (cp' <- set_ cp (i + 1) (length (L ++ chosen i)) ;; Ok (cp', outp nz (L ++ chosen i)))) ->
  for_ 0 n body (replicate (n + 1) 0, outp nz []) = Ok (pre chosen <$> seq 0 (n + 1), outp nz (rowsOf chosen 0 n)).
Proof.
  intros n nz H.
  destruct (for_inv (fun i s => s = (cps n i, outp nz (rowsOf chosen 0 i))) body 0 n (replicate (n + 1) 0, outp nz [])) as (s & -> & ->);
    [lia|unfold cps; rewrite Nat.sub_0_r, Nat.add_1_r; reflexivity| |rewrite cps_all; reflexivity].
  intros i s Hi ->. assert (Hl : length (rowsOf chosen 0 i) = pre chosen i) by (rewrite rowsOf_length, pre_0 by lia; lia).
  rewrite H; [|lia|]. 2:{ rewrite Hl, <- pre_S. apply pre_le. lia. }
  rewrite app_length, Hl, <- pre_S, cps_set by lia. rewrite bind_Ok. eexists. split; [reflexivity|]. rewrite Nat.add_1_r, rowsOf_S by lia. reflexivity.
Qed.

Lemma sub_result (Hw : wf_csc X) ri : (forall col e, e ∈ f col -> e ∈ col) ->
  sub_of f X ri ci (mkCsc (length ri) (length ci) (pre chosen (length ci)) (pre chosen <$> seq 0 (length ci + 1))
    (fst <$> rowsOf chosen 0 (length ci)) (snd <$> rowsOf chosen 0 (length ci))).
Proof.
  intros Hf. constructor; try reflexivity.
  - unfold wf_csc, csc_tr. cbn [c_rows c_cols c_nnz colptr rowids c_values]. apply (assemble_wf chosen (length ci) (c_rows X)).
    intros i r v Hi Hin. unfold chosen in Hin. apply Hf in Hin. apply (row_entries_range _ _ _ _ Hw Hin).
  - intros i c Hc. assert (Hi : i < length ci) by (apply lookup_lt_Some in Hc; exact Hc). pose proof (assemble_row chosen (length ci) (length ri) i Hi) as H.
    unfold chosen at 2 in H. rewrite Hc in H. exact H.
Qed.
Lemma outp_all : outp (pre chosen (length ci)) (rowsOf chosen 0 (length ci)) =
  (pre chosen (length ci), fst <$> rowsOf chosen 0 (length ci), snd <$> rowsOf chosen 0 (length ci)).
Proof. unfold outp. rewrite !rowsOf_length, pre_0, Nat.sub_0_r, Nat.sub_diag, !app_nil_r by lia. reflexivity. Qed.
Lemma newCsc_ok : 0 < pre chosen (length ci) ->
  newCsc dflt (pre chosen (length ci)) 0 (length ci) = Ok (replicate (length ci + 1) 0, replicate (pre chosen (length ci)) 0, replicate (pre chosen (length ci)) dflt).
Proof.
  intros H. unfold newCsc. assert (length ci <> 0) by (destruct ci; [rewrite pre_0 in H; lia|discriminate]).
  destruct (Nat.eqb_spec (pre chosen (length ci)) 0); [lia|]. destruct (Nat.eqb_spec (length ci) 0); [lia|]. reflexivity.
Qed.
Lemma chosen_pos : (exists c, c ∈ ci /\ f (col_entries X c) <> []) <-> 0 < pre chosen (length ci).
Proof.
  split.
  - intros (c & Hin & Hne). apply elem_of_list_lookup in Hin as [i Hi]. pose proof (lookup_lt_Some _ _ _ Hi) as Hl.
    pose proof (pre_le chosen (S i) (length ci) ltac:(lia)) as H. rewrite pre_S in H. unfold chosen at 2 in H. rewrite Hi in H. simpl in H.
    destruct (f (col_entries X c)); [congruence|]. simpl in H. lia.
  - intros H. assert (G : forall n, n <= length ci -> 0 < pre chosen n -> exists c, c ∈ ci /\ f (col_entries X c) <> []).
    { induction n as [|n IH]; intros Hn Hp; [rewrite pre_0 in Hp; lia|]. rewrite pre_S in Hp. destruct (chosen n) eqn:E; [apply IH; [lia|simpl in Hp; lia]|].
      destruct (lookup_lt_is_Some_2 ci n ltac:(lia)) as [c Hc]. exists c. split; [eapply elem_of_list_lookup_2, Hc|]. unfold chosen in E. rewrite Hc in E. simpl in E. congruence. }
    exact (G (length ci) (le_n _) H).
Qed.
End Cols.

Lemma backCheck_ok l bound : (forall x, last l = Some x -> x <= bound) -> backCheck l bound = Ok tt.
Proof. intros H. unfold backCheck. destruct (last l) as [x|]; [|reflexivity]. destruct (Nat.ltb_spec bound x); [specialize (H x eq_refl); lia|reflexivity]. Qed.
Lemma backCheck_forall l bound : Forall (fun x => x <= bound) l -> backCheck l bound = Ok tt.
Proof. intros H. apply backCheck_ok. intros x Hx. rewrite Forall_forall in H. apply H. rewrite last_lookup in Hx. eapply elem_of_list_lookup_2, Hx. Qed.

Lemma picked_sub ri (col : list ent) e : e ∈ picked ri col -> e ∈ col.
Proof. intros H. apply elem_of_list_join in H as (l & He & Hl). apply elem_of_list_fmap in Hl as (r & -> & _). apply elem_of_list_filter in He. apply He. Qed.
Lemma rows_in_sub ri (col : list ent) e : e ∈ rows_in ri col -> e ∈ col.
Proof. intros H. apply elem_of_list_filter in H. apply H. Qed.
End Ref.
