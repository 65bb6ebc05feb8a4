(** Lemmas about the outcome monad, checked arrays, loops, and CSR rows. *)
From Verif Require Import Base Spec KernelBase.

Lemma bind_Ok {A B} (a : A) (k : A -> res B) : bind (Ok a) k = k a.
Proof. reflexivity. Qed.

Lemma bind_assoc {A B C} (e : res A) (k : A -> res B) (k' : B -> res C) :
  bind (bind e k) k' = bind e (fun a => bind (k a) k').
Proof. destruct e; reflexivity. Qed.

Lemma get_Some {A} (l : list A) i a : l !! i = Some a -> get l i = Ok a.
Proof. unfold get. intros ->. reflexivity. Qed.

Lemma get_inv {A} (l : list A) i a : get l i = Ok a -> l !! i = Some a.
Proof. unfold get. destruct (l !! i); congruence. Qed.

Lemma getI_Some {A} (l : list (option A)) i a : l !! i = Some (Some a) -> getI l i = Ok a.
Proof. unfold getI. intros ->. reflexivity. Qed.

Lemma set_Ok {A} (l : list A) i a : i < length l -> set_ l i a = Ok (<[i:=a]> l).
Proof. unfold set_. intros H. destruct (Nat.ltb_spec i (length l)); [reflexivity|lia]. Qed.

Lemma set_inv {A} (l l' : list A) i a : set_ l i a = Ok l' -> i < length l /\ l' = <[i:=a]> l.
Proof. unfold set_. destruct (Nat.ltb_spec i (length l)); intros H'; inversion H'; auto. Qed.

Lemma assert_true b : b = true -> assert_ b = Ok tt.
Proof. intros ->. reflexivity. Qed.

Lemma emit_Ok {V} (o : out V) c v : length (o_done o) < o_cap o ->
  emit o c v = Ok (mkOut (o_done o ++ [(c, v)]) (o_cap o)).
Proof. unfold emit. intros H. destruct (Nat.ltb_spec (length (o_done o)) (o_cap o)); [reflexivity|lia]. Qed.

Lemma foldM_cons {S A} (f : S -> A -> res S) a l s :
  foldM f (a :: l) s = (s' <- f s a ;; foldM f l s').
Proof. reflexivity. Qed.

Lemma foldM_app {S A} (f : S -> A -> res S) l1 l2 s :
  foldM f (l1 ++ l2) s = (s' <- foldM f l1 s ;; foldM f l2 s').
Proof.
  revert s. induction l1 as [|a l1 IH]; intros s; simpl; [reflexivity|].
  destruct (f s a) as [s'|]; simpl; [apply IH|reflexivity].
Qed.

(** Extensionality on the elements actually in the list. *)
Lemma foldM_ext {S A} (f g : S -> A -> res S) l s :
  (forall s a, a ∈ l -> f s a = g s a) -> foldM f l s = foldM g l s.
Proof.
  revert s. induction l as [|a l IH]; intros s H; simpl; [reflexivity|].
  rewrite (H s a) by left. destruct (g s a); simpl; [|reflexivity].
  apply IH. intros s' a' Ha'. apply H. right. exact Ha'.
Qed.

Lemma foldM_fmap {S A B} (f : S -> B -> res S) (g : A -> B) l s :
  foldM f (g <$> l) s = foldM (fun s a => f s (g a)) l s.
Proof.
  revert s. induction l as [|a l IH]; intros s; simpl; [reflexivity|].
  destruct (f s (g a)); simpl; [apply IH|reflexivity].
Qed.

Lemma foldM_mjoin {S A} (f : S -> A -> res S) (ll : list (list A)) s :
  foldM f (mjoin ll) s = foldM (fun s l => foldM f l s) ll s.
Proof.
  revert s. induction ll as [|l ll IH]; intros s; simpl; [reflexivity|].
  rewrite foldM_app. destruct (foldM f l s); simpl; [apply IH|reflexivity].
Qed.

(** Invariant rule: [I done s] after processing the prefix [done]. *)
Lemma foldM_inv {S A} (I : list A -> S -> Prop) (f : S -> A -> res S) (l : list A) s0 :
  I [] s0 ->
  (forall done a rest s, l = done ++ a :: rest -> I done s ->
     exists s', f s a = Ok s' /\ I (done ++ [a]) s') ->
  exists s', foldM f l s0 = Ok s' /\ I l s'.
Proof.
  intros H0 Hstep.
  assert (forall rest done s, l = done ++ rest -> I done s ->
            exists s', foldM f rest s = Ok s' /\ I l s') as H.
  { induction rest as [|a rest IH]; intros done s Hl HI; simpl.
    - rewrite app_nil_r in Hl. subst. eauto.
    - destruct (Hstep done a rest s Hl HI) as (s' & -> & HI'). simpl.
      apply (IH (done ++ [a])); [rewrite <- app_assoc; exact Hl|exact HI']. }
  apply (H l []); [reflexivity|exact H0].
Qed.

Lemma mjoin_cons {A} (l : list A) (ll : list (list A)) : mjoin (l :: ll) = l ++ mjoin ll.
Proof. reflexivity. Qed.

Lemma take_drop_S {A} (l : list A) i n a :
  l !! i = Some a -> take (S n) (drop i l) = a :: take n (drop (S i) l).
Proof. intros H. rewrite (drop_S l a i H). reflexivity. Qed.

(** An index loop over a segment of an array is a fold over the segment. *)
Lemma for_n_foldM {S A} (l : list A) (body : nat -> S -> res S) (f : S -> A -> res S) n i s :
  i + n <= length l ->
  (forall k a s, i <= k < i + n -> l !! k = Some a -> body k s = f s a) ->
  for_n n i body s = foldM f (take n (drop i l)) s.
Proof.
  revert i s. induction n as [|n IH]; intros i s Hlen Hb; simpl; [reflexivity|].
  destruct (lookup_lt_is_Some_2 l i) as [a Ha]; [lia|].
  rewrite (take_drop_S _ _ _ _ Ha). simpl.
  rewrite (Hb i a s) by (auto; lia).
  destruct (f s a) as [s'|]; simpl; [|reflexivity].
  apply IH; [lia|]. intros k a' s'' Hk. apply Hb. lia.
Qed.

Lemma for_foldM {S A} (l : list A) (body : nat -> S -> res S) (f : S -> A -> res S) lo hi s :
  hi <= length l -> lo <= hi ->
  (forall k a s, lo <= k < hi -> l !! k = Some a -> body k s = f s a) ->
  for_ lo hi body s = foldM f (take (hi - lo) (drop lo l)) s.
Proof. intros H1 H2 H3. apply for_n_foldM; [lia|]. intros. apply H3; [lia|assumption]. Qed.

(** Invariant rule for index loops. *)
Lemma for_n_inv {S} (I : nat -> S -> Prop) (body : nat -> S -> res S) n lo s0 :
  I lo s0 ->
  (forall i s, lo <= i < lo + n -> I i s -> exists s', body i s = Ok s' /\ I (i + 1) s') ->
  exists s', for_n n lo body s0 = Ok s' /\ I (lo + n) s'.
Proof.
  revert lo s0. induction n as [|n IH]; intros lo s0 H0 Hstep; simpl.
  - rewrite Nat.add_0_r. eauto.
  - destruct (Hstep lo s0) as (s' & -> & HI'); [lia|exact H0|]. simpl.
    destruct (IH (Datatypes.S lo) s') as (s'' & Hs'' & HI'').
    + replace (Datatypes.S lo) with (lo + 1) by lia. exact HI'.
    + intros i s Hi. apply Hstep. lia.
    + exists s''. split; [exact Hs''|]. replace (lo + Datatypes.S n) with (Datatypes.S lo + n) by lia. exact HI''.
Qed.

Lemma for_inv {S} (I : nat -> S -> Prop) (body : nat -> S -> res S) lo hi s0 :
  lo <= hi -> I lo s0 ->
  (forall i s, lo <= i < hi -> I i s -> exists s', body i s = Ok s' /\ I (i + 1) s') ->
  exists s', for_ lo hi body s0 = Ok s' /\ I hi s'.
Proof.
  intros Hle H0 Hstep. unfold for_.
  destruct (for_n_inv I body (hi - lo) lo s0 H0) as (s' & H1 & H2).
  - intros i s Hi. apply Hstep. lia.
  - exists s'. split; [exact H1|]. replace hi with (lo + (hi - lo)) by lia. exact H2.
Qed.

(** ** Rows of a well-formed CSR *)
Section CsrRows.
Context {V : Type}.
Implicit Types X : csr V.

Lemma wf_lookup X i : wf X -> i <= rows X -> exists p, rowptr X !! i = Some p.
Proof.
  intros Hw Hi. apply lookup_lt_is_Some_2. rewrite (wf_len X Hw). lia.
Qed.

Lemma wf_mono_le X i j a b : wf X -> rowptr X !! i = Some a -> rowptr X !! j = Some b -> i <= j -> a <= b.
Proof.
  intros Hw Ha Hb Hij. revert b Hb. induction Hij as [|j Hij IH]; intros b Hb.
  - rewrite Ha in Hb. inversion Hb. lia.
  - assert (Datatypes.S j < length (rowptr X)) as Hlt by (apply lookup_lt_is_Some_1; eauto).
    destruct (lookup_lt_is_Some_2 (rowptr X) j) as [p Hp]; [lia|].
    specialize (IH p Hp). pose proof (wf_mono X Hw j p b Hp) as Hm.
    replace (j + 1) with (Datatypes.S j) in Hm by lia. specialize (Hm Hb). lia.
Qed.

Lemma wf_le_nnz X i a : wf X -> rowptr X !! i = Some a -> i <= rows X -> a <= nnz X.
Proof. intros Hw Ha Hi. eapply wf_mono_le; [exact Hw|exact Ha|apply wf_last, Hw|exact Hi]. Qed.

Lemma row_bounds_wf X i : wf X -> i < rows X ->
  exists b e, rowptr X !! i = Some b /\ rowptr X !! (i + 1) = Some e /\
    b <= e /\ e <= nnz X /\ row_bounds X i = Ok (b, e).
Proof.
  intros Hw Hi.
  destruct (wf_lookup X i Hw) as [b Hb]; [lia|].
  destruct (wf_lookup X (i + 1) Hw) as [e He]; [lia|].
  exists b, e. repeat split; auto.
  - eapply wf_mono; eauto.
  - eapply wf_le_nnz; eauto. lia.
  - unfold row_bounds. rewrite (get_Some _ _ _ Hb), (get_Some _ _ _ He). reflexivity.
Qed.

Lemma row_entries_eq X i b e : rowptr X !! i = Some b -> rowptr X !! (i + 1) = Some e ->
  row_entries X i = take (e - b) (drop b (zip (colids X) (values X))).
Proof. intros Hb He. unfold row_entries. rewrite Hb, He. reflexivity. Qed.

Lemma zip_length X : wf X -> length (zip (colids X) (values X)) = nnz X.
Proof.
  intros Hw. rewrite zip_with_length. rewrite (wf_colids X Hw), (wf_values X Hw). lia.
Qed.

Lemma row_cols_eq X i b e : wf X -> rowptr X !! i = Some b -> rowptr X !! (i + 1) = Some e ->
  row_cols X i = take (e - b) (drop b (colids X)).
Proof.
  intros Hw Hb He. unfold row_cols. rewrite (row_entries_eq X i b e Hb He).
  rewrite fmap_take, fmap_drop. rewrite fst_zip; [reflexivity|].
  rewrite (wf_colids X Hw), (wf_values X Hw). lia.
Qed.

Lemma zip_lookup X k c v : wf X ->
  zip (colids X) (values X) !! k = Some (c, v) -> colids X !! k = Some c /\ values X !! k = Some v.
Proof.
  intros _ H. apply lookup_zip_with_Some in H. destruct H as (x & y & He & Hx & Hy).
  inversion He; subst. auto.
Qed.

Lemma row_entries_range X i k v : wf X -> (k, v) ∈ row_entries X i -> k < cols X.
Proof.
  intros Hw Hin. unfold row_entries in Hin.
  destruct (rowptr X !! i), (rowptr X !! (i + 1)); [|inversion Hin..].
  apply elem_of_list_lookup in Hin as [p Hp].
  rewrite lookup_take_Some in Hp. destruct Hp as [Hp _]. rewrite lookup_drop in Hp.
  apply zip_lookup in Hp as [Hp _]; [|exact Hw]. eapply wf_range; eauto.
Qed.

Lemma row_cols_range X i c : wf X -> c ∈ row_cols X i -> c < cols X.
Proof.
  intros Hw Hin. unfold row_cols in Hin. apply elem_of_list_fmap in Hin as ([k v] & -> & Hin).
  eapply row_entries_range; eauto.
Qed.

Lemma row_entries_length X i b e : wf X -> i < rows X ->
  rowptr X !! i = Some b -> rowptr X !! (i + 1) = Some e ->
  length (row_entries X i) = e - b.
Proof.
  intros Hw Hi Hb He. rewrite (row_entries_eq X i b e Hb He).
  rewrite take_length, drop_length, zip_length by exact Hw.
  pose proof (wf_le_nnz X (i + 1) e Hw He). lia.
Qed.

Lemma row_cols_length X i : length (row_cols X i) = length (row_entries X i).
Proof. unfold row_cols. apply fmap_length. Qed.

(** A loop over a mask row is a fold over its columns. *)
Lemma mask_loop_foldM {S} X row (body : nat -> S -> res S) s : wf X -> row < rows X ->
  mask_loop X row body s = foldM (fun s c => body c s) (row_cols X row) s.
Proof.
  intros Hw Hr. destruct (row_bounds_wf X row Hw Hr) as (b & e & Hb & He & Hbe & Hen & Hrb).
  unfold mask_loop. rewrite Hrb. simpl.
  rewrite (row_cols_eq X row b e Hw Hb He).
  apply for_foldM; [rewrite (wf_colids X Hw); lia|lia|].
  intros k a s' _ Ha. rewrite (get_Some _ _ _ Ha). reflexivity.
Qed.

(** The list of all (column, a, b) visited by the nested loop. *)
Definition row_prods (A B : csr V) (i : nat) : list (nat * V * V) :=
  mjoin ((fun ka => (fun cb => (fst cb, snd ka, snd cb)) <$> row_entries B (fst ka)) <$> row_entries A i).

Lemma prod_loop_foldM {S} (A B : csr V) row (body : nat -> nat -> S -> res S)
    (f : S -> nat * V * V -> res S) s :
  wf A -> wf B -> cols A = rows B -> row < rows A ->
  (forall j k s c a b, values A !! j = Some a -> colids B !! k = Some c -> values B !! k = Some b ->
     c < cols B -> body j k s = f s (c, a, b)) ->
  prod_loop A B row body s = foldM f (row_prods A B row) s.
Proof.
  intros HA HB Hc Hr Hbody.
  destruct (row_bounds_wf A row HA Hr) as (b & e & Hb & He & Hbe & Hen & Hrb).
  unfold prod_loop. rewrite Hrb. simpl. unfold row_prods.
  rewrite foldM_mjoin, foldM_fmap.
  rewrite (row_entries_eq A row b e Hb He).
  apply for_foldM; [rewrite zip_length by exact HA; lia|lia|].
  intros j [k a] s' _ Hj. apply zip_lookup in Hj as [Hj Hja]; [|exact HA].
  rewrite (get_Some _ _ _ Hj). simpl.
  assert (k < rows B) as Hk by (rewrite <- Hc; eapply wf_range; eauto).
  destruct (row_bounds_wf B k HB Hk) as (b' & e' & Hb' & He' & Hbe' & Hen' & Hrb').
  rewrite Hrb'. simpl. rewrite foldM_fmap.
  rewrite (row_entries_eq B k b' e' Hb' He').
  apply for_foldM; [rewrite zip_length by exact HB; lia|lia|].
  intros k' [c v] s'' _ Hk'. apply zip_lookup in Hk' as [Hc' Hv']; [|exact HB]. simpl.
  apply Hbody; auto. eapply wf_range; eauto.
Qed.

Lemma row_prods_range (A B : csr V) i c a b : wf B -> (c, a, b) ∈ row_prods A B i -> c < cols B.
Proof.
  intros HB Hin. unfold row_prods in Hin. apply elem_of_list_join in Hin as (l & Hl & Hin).
  apply elem_of_list_fmap in Hin as ([k a'] & -> & _).
  apply elem_of_list_fmap in Hl as ([c' b'] & He & Hin'). simpl in *. inversion He; subst.
  eapply row_entries_range; eauto.
Qed.

Lemma row_prods_cols (A B : csr V) i :
  (fun p : nat * V * V => fst (fst p)) <$> row_prods A B i = touched_cols A B i.
Proof.
  unfold row_prods, touched_cols. induction (row_entries A i) as [|ka l IH]; [reflexivity|].
  rewrite !fmap_cons, !mjoin_cons, fmap_app, IH. f_equal. unfold row_cols.
  rewrite <- list_fmap_compose. reflexivity.
Qed.

Lemma products_row_prods (mul : V -> V -> V) (A B : csr V) i j :
  products mul (row_entries A i) (row_entries B) j =
  (fun p : nat * V * V => mul (snd (fst p)) (snd p)) <$>
    filter (fun p : nat * V * V => fst (fst p) = j) (row_prods A B i).
Proof.
  unfold products, row_prods. induction (row_entries A i) as [|ka l IH]; [reflexivity|].
  rewrite !fmap_cons, !mjoin_cons, filter_app, fmap_app, IH. f_equal. clear.
  induction (row_entries B (fst ka)) as [|cb l IH]; [reflexivity|].
  rewrite fmap_cons, 2!filter_cons. simpl.
  destruct (decide (fst cb = j)); simpl; [f_equal|]; exact IH.
Qed.
End CsrRows.

(** ** The column value determined by a prefix of the product list *)
Section ColVal.
Context {V : Type} (mul add : V -> V -> V).

Definition colval (ps : list (nat * V * V)) (j : nat) : option V :=
  sum1 add ((fun p : nat * V * V => mul (snd (fst p)) (snd p)) <$>
              filter (fun p : nat * V * V => fst (fst p) = j) ps).

Lemma sum1_snoc l x : sum1 add (l ++ [x]) =
  Some (match sum1 add l with None => x | Some v => add v x end).
Proof. destruct l as [|y l]; simpl; [reflexivity|]. rewrite fold_left_app. reflexivity. Qed.

Lemma colval_nil j : colval [] j = None.
Proof. reflexivity. Qed.

Lemma colval_snoc ps c a b j : colval (ps ++ [(c, a, b)]) j =
  if decide (c = j) then Some (match colval ps j with None => mul a b | Some v => add v (mul a b) end)
  else colval ps j.
Proof.
  unfold colval. rewrite filter_app, filter_cons, filter_nil. simpl.
  destruct (decide (c = j)) as [Hc|Hc].
  - rewrite fmap_app. simpl. rewrite sum1_snoc. reflexivity.
  - rewrite app_nil_r. reflexivity.
Qed.

Lemma colval_entry (A B : csr V) i j :
  colval (row_prods A B i) j = entry mul add (row_entries A i) (row_entries B) j.
Proof. unfold colval, entry. rewrite products_row_prods. reflexivity. Qed.

Lemma colval_None ps j : colval ps j = None <-> j ∉ ((fun p : nat * V * V => fst (fst p)) <$> ps).
Proof.
  unfold colval. induction ps as [|[[c a] b] ps IH]; simpl.
  - split; [intros _ H; inversion H|reflexivity].
  - rewrite filter_cons. simpl. destruct (decide (c = j)) as [->|Hne]; simpl.
    + split; [discriminate|]. intros H. exfalso. apply H. left.
    + rewrite IH. rewrite not_elem_of_cons. split; [intros H; split; auto|tauto].
Qed.
End ColVal.

(** *** Index-level access to rows *)
Section RowLoop.
Context {V : Type}.
Implicit Types X : csr V.

Lemma row_entries_lookup X row b e i c v : wf X -> row < rows X ->
  rowptr X !! row = Some b -> rowptr X !! (row + 1) = Some e ->
  row_entries X row !! i = Some (c, v) ->
  i < e - b /\ colids X !! (b + i) = Some c /\ values X !! (b + i) = Some v.
Proof.
  intros Hw Hr Hb He Hl. rewrite (row_entries_eq X row b e Hb He) in Hl.
  apply lookup_take_Some in Hl as [Hl Hi]. rewrite lookup_drop in Hl.
  apply zip_lookup in Hl as [H1 H2]; auto.
Qed.

Lemma row_entries_lookup_ex X row b e i : wf X -> row < rows X ->
  rowptr X !! row = Some b -> rowptr X !! (row + 1) = Some e -> i < e - b ->
  exists c v, row_entries X row !! i = Some (c, v) /\
    colids X !! (b + i) = Some c /\ values X !! (b + i) = Some v /\ c < cols X.
Proof.
  intros Hw Hr Hb He Hi.
  destruct (lookup_lt_is_Some_2 (row_entries X row) i) as [[c v] Hcv].
  { rewrite (row_entries_length X row b e Hw Hr Hb He). exact Hi. }
  destruct (row_entries_lookup X row b e i c v Hw Hr Hb He Hcv) as (_ & H1 & H2).
  exists c, v. repeat split; auto. eapply wf_range; eauto.
Qed.

Lemma row_cols_lookup X row i c : row_cols X row !! i = Some c <-> exists v, row_entries X row !! i = Some (c, v).
Proof.
  unfold row_cols. rewrite list_lookup_fmap. split.
  - destruct (row_entries X row !! i) as [[c' v]|] eqn:E; simpl; [|discriminate].
    intros H; inversion H; subst. eauto.
  - intros [v ->]. reflexivity.
Qed.

Lemma row_cols_index X row b e i c : wf X -> row < rows X ->
  rowptr X !! row = Some b -> rowptr X !! (row + 1) = Some e ->
  row_cols X row !! i = Some c <-> i < e - b /\ colids X !! (b + i) = Some c.
Proof.
  intros Hw Hr Hb He. rewrite row_cols_lookup. split.
  - intros [v Hv]. destruct (row_entries_lookup X row b e i c v Hw Hr Hb He Hv) as (H1 & H2 & _). auto.
  - intros [Hi Hc]. destruct (row_entries_lookup_ex X row b e i Hw Hr Hb He Hi) as (c' & v & H1 & H2 & _ & _).
    rewrite Hc in H2. inversion H2; subst. eauto.
Qed.

(** Invariant rule for [for (j = rowptr[row]; j < rowptr[row+1]; ++j)]. *)
Lemma row_loop_inv {S} X row b e (I : list (nat * V) -> S -> Prop) (body : nat -> S -> res S) s0 :
  wf X -> row < rows X ->
  rowptr X !! row = Some b -> rowptr X !! (row + 1) = Some e ->
  I [] s0 ->
  (forall done j k v rest s, row_entries X row = done ++ (k, v) :: rest ->
     j = b + length done -> colids X !! j = Some k -> values X !! j = Some v -> k < cols X ->
     I done s -> exists s', body j s = Ok s' /\ I (done ++ [(k, v)]) s') ->
  exists s', for_ b e body s0 = Ok s' /\ I (row_entries X row) s'.
Proof.
  intros Hw Hr Hb He H0 Hstep.
  pose proof (row_entries_length X row b e Hw Hr Hb He) as Hlen.
  assert (b <= e) as Hbe by (eapply (wf_mono X Hw); eauto).
  destruct (for_inv (fun j s => I (take (j - b) (row_entries X row)) s) body b e s0) as (s' & Hf & HI).
  - exact Hbe.
  - rewrite Nat.sub_diag. exact H0.
  - intros j s Hj HI.
    destruct (row_entries_lookup_ex X row b e (j - b) Hw Hr Hb He) as (c & v & H1 & H2 & H3 & H4); [lia|].
    replace (b + (j - b)) with j in * by lia.
    destruct (Hstep (take (j - b) (row_entries X row)) j c v (drop (Datatypes.S (j - b)) (row_entries X row)) s) as (s' & Hs & HI').
    + rewrite <- (take_drop (j - b) (row_entries X row)) at 1. f_equal.
      apply drop_S. exact H1.
    + rewrite take_length. lia.
    + exact H2.
    + exact H3.
    + exact H4.
    + exact HI.
    + exists s'. split; [exact Hs|]. replace (j + 1 - b) with (Datatypes.S (j - b)) by lia.
      rewrite (take_S_r _ _ _ H1). exact HI'.
  - exists s'. split; [exact Hf|]. rewrite take_ge in HI by lia. exact HI.
Qed.

(** Products of a prefix of the row of A. *)
Definition prods_of (a : V) (l : list (nat * V)) : list (nat * V * V) := (fun cb => (fst cb, a, snd cb)) <$> l.
Definition rp (B : csr V) (l : list (nat * V)) : list (nat * V * V) :=
  mjoin ((fun ka => prods_of (snd ka) (row_entries B (fst ka))) <$> l).

Lemma rp_snoc B l k a : rp B (l ++ [(k, a)]) = rp B l ++ prods_of a (row_entries B k).
Proof.
  unfold rp. induction l as [|x l IH].
  - rewrite app_nil_l, fmap_cons, mjoin_cons. simpl. apply app_nil_r.
  - rewrite <- app_comm_cons, !fmap_cons, !mjoin_cons, IH, app_assoc. reflexivity.
Qed.

Lemma rp_row A B row : rp B (row_entries A row) = row_prods A B row.
Proof. reflexivity. Qed.
End RowLoop.
