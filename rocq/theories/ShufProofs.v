(** Proofs about ShufModel. *)
From Verif Require Import BaseProofs Assemble ShufModel ShufSpec.
From Verif Require Import Base Spec.

(** Exchange of two elements. *)
Definition swp {A} (l : list A) (a b : nat) : list A :=
  match l !! a, l !! b with Some x, Some y => <[b:=x]> (<[a:=y]> l) | _, _ => l end.

Lemma insert_perm {A} (l : list A) i x y : l !! i = Some y -> y :: <[i:=x]> l ≡ₚ x :: l.
Proof.
  revert i. induction l as [|z l IH]; intros [|i] H; simpl in *; try discriminate.
  - injection H as ->. apply Permutation_swap.
  - etrans; [apply Permutation_swap|]. etrans; [apply Permutation_skip, (IH i H)|]. apply Permutation_swap.
Qed.
Lemma swp_perm {A} (l : list A) a b : swp l a b ≡ₚ l.
Proof.
  unfold swp. destruct (l !! a) as [x|] eqn:Ea; [|reflexivity]. destruct (l !! b) as [y|] eqn:Eb; [|reflexivity].
  assert (Hb : <[a:=y]> l !! b = Some y).
  { destruct (decide (a = b)) as [->|Hne]; [apply list_lookup_insert; eapply lookup_lt_Some; exact Eb|].
    rewrite list_lookup_insert_ne by congruence. exact Eb. }
  apply (Permutation_cons_inv (a := y)). etrans; [apply insert_perm, Hb|]. apply insert_perm, Ea.
Qed.
Lemma swp_length {A} (l : list A) a b : length (swp l a b) = length l.
Proof. apply Permutation_length, swp_perm. Qed.
Lemma swp_fmap {A B} (f : A -> B) (l : list A) a b : f <$> swp l a b = swp (f <$> l) a b.
Proof.
  unfold swp. rewrite !list_lookup_fmap. destruct (l !! a); [|reflexivity]. destruct (l !! b); [|reflexivity]. simpl.
  rewrite !list_fmap_insert. reflexivity.
Qed.
Lemma swp_mid {A} (P R Q : list A) a b : a < length R -> b < length R ->
  swp (P ++ R ++ Q) (length P + a) (length P + b) = P ++ swp R a b ++ Q.
Proof.
  intros Ha Hb. unfold swp.
  assert (E : forall i, i < length R -> (P ++ R ++ Q) !! (length P + i) = R !! i).
  { intros i Hi. rewrite lookup_app_r by lia. replace (length P + i - length P) with i by lia. apply lookup_app_l, Hi. }
  rewrite (E a Ha), (E b Hb).
  destruct (lookup_lt_is_Some_2 R a Ha) as [x ->]. destruct (lookup_lt_is_Some_2 R b Hb) as [y ->].
  rewrite !insert_app_r, !insert_app_l by (rewrite ?insert_length; lia). reflexivity.
Qed.

Section Row.
Context {A : Type}.
(** The exchanges of one row with the targets [t]. *)
Definition shufs (t : nat -> nat) (R : list A) (m : nat) : list A := foldl (fun R j => swp R (t j) j) R (seq 0 m).
Lemma shufs_S t R m : shufs t R (S m) = swp (shufs t R m) (t m) m.
Proof. unfold shufs. rewrite seq_S, foldl_app. reflexivity. Qed.
Lemma shufs_perm t R m : shufs t R m ≡ₚ R.
Proof. induction m as [|m IH]; [reflexivity|]. rewrite shufs_S. etrans; [apply swp_perm|exact IH]. Qed.
Lemma shufs_length t R m : length (shufs t R m) = length R.
Proof. apply Permutation_length, shufs_perm. Qed.
Lemma shufs_ext t t' R m : (forall j, j < m -> t j = t' j) -> shufs t R m = shufs t' R m.
Proof. induction m as [|m IH]; intros H; [reflexivity|]. rewrite !shufs_S, IH, H by (intros; try apply H; lia). reflexivity. Qed.
(** Every order of the row is reached. *)
Lemma shufs_reach (R R' : list A) m : R' ≡ₚ R -> m <= length R ->
  exists t, (forall j, t j < length R \/ length R = 0) /\ take m (shufs t R m) = take m R'.
Proof.
  intros Hp. induction m as [|m IH]; intros Hm; [exists (fun _ => 0); split; [intros; lia|reflexivity]|].
  destruct (IH ltac:(lia)) as (t & Ht & E).
  pose proof (Permutation_length Hp) as Hl. pose proof (shufs_length t R m) as Hl2.
  destruct (lookup_lt_is_Some_2 R' m ltac:(lia)) as [y Hy].
  assert (Hd : drop m (shufs t R m) ≡ₚ drop m R').
  { apply (Permutation_app_inv_l (take m R')). rewrite take_drop. rewrite <- E at 1. rewrite take_drop. rewrite shufs_perm. symmetry. exact Hp. }
  assert (Hin : y ∈ drop m (shufs t R m)).
  { rewrite Hd. apply elem_of_list_lookup. exists 0. rewrite lookup_drop, Nat.add_0_r. exact Hy. }
  apply elem_of_list_lookup in Hin as [i Hi]. rewrite lookup_drop in Hi.
  exists (fun j => if j =? m then m + i else t j). split.
  { intros j. destruct (j =? m); [|apply Ht]. apply lookup_lt_Some in Hi. left. lia. }
  rewrite shufs_S, Nat.eqb_refl.
  rewrite (shufs_ext _ t) by (intros j Hj; destruct (Nat.eqb_spec j m); [lia|reflexivity]).
  rewrite (take_S_r R' m y Hy), <- E.
  destruct (lookup_lt_is_Some_2 (shufs t R m) m ltac:(lia)) as [x Hx].
  unfold swp. rewrite Hi, Hx. rewrite (take_S_r _ m y).
  2:{ apply list_lookup_insert. rewrite insert_length. lia. }
  f_equal. rewrite take_insert by lia. rewrite take_insert by lia. reflexivity.
Qed.
End Row.

Section Arrays.
Context {V : Type} (signed : bool) (draw : nat -> nat -> nat) (Hd : in_range draw).

Lemma shuffleRange_ok (P R Q : list (nat * V)) k :
  shuffleRange draw (length P) (length P + length R) (k, fst <$> P ++ R ++ Q, snd <$> P ++ R ++ Q) =
  let R' := shufs (fun j => draw (k + j) (length R - 1)) R (length R) in
  Ok (k + length R, fst <$> P ++ R' ++ Q, snd <$> P ++ R' ++ Q).
Proof.
  cbv zeta. set (t := fun j => draw (k + j) (length R - 1)). unfold shuffleRange.
  destruct (for_inv (fun i (s : nat * list nat * list V) => let R' := shufs t R (i - length P) in
     s = (k + (i - length P), fst <$> P ++ R' ++ Q, snd <$> P ++ R' ++ Q))
    (fun j '(k, ids, vals) =>
      tmpId <- get ids (length P + draw k (length P + length R - length P - 1)) ;;
      tmpVal <- get vals (length P + draw k (length P + length R - length P - 1)) ;;
      x <- get ids j ;;
      ids <- set_ ids (length P + draw k (length P + length R - length P - 1)) x ;;
      y <- get vals j ;;
      vals <- set_ vals (length P + draw k (length P + length R - length P - 1)) y ;;
      ids <- set_ ids j tmpId ;;
      vals <- set_ vals j tmpVal ;;
      Ok (k + 1, ids, vals))
    (length P) (length P + length R) (k, fst <$> P ++ R ++ Q, snd <$> P ++ R ++ Q)) as (s & -> & Hs).
  - lia.
  - cbv zeta. rewrite Nat.sub_diag, Nat.add_0_r. reflexivity.
  - intros j s Hj ->. set (m := j - length P). set (R1 := shufs t R m).
    assert (L1 : length R1 = length R) by apply shufs_length.
    assert (Hm : m < length R) by (unfold m; lia).
    assert (Ej : j = length P + m) by (unfold m; lia).
    replace (length P + length R - length P - 1) with (length R - 1) by lia.
    change (draw (k + m) (length R - 1)) with (t m).
    assert (Ht : t m < length R) by (unfold t; specialize (Hd (k + m) (length R - 1)); lia).
    set (L := P ++ R1 ++ Q).
    assert (LL : length L = length P + length R + length Q) by (unfold L; rewrite !app_length; lia).
    destruct (lookup_lt_is_Some_2 L (length P + t m) ltac:(lia)) as [[xi xv] Hx].
    destruct (lookup_lt_is_Some_2 L j ltac:(lia)) as [[yi yv] Hy].
    pose proof (swp_mid P R1 Q (t m) m ltac:(lia) ltac:(lia)) as Hsw. rewrite <- Ej in Hsw. fold L in Hsw.
    rewrite (get_Some (fst <$> L) _ xi) by (rewrite list_lookup_fmap, Hx; reflexivity). cbn [bind].
    rewrite (get_Some (snd <$> L) _ xv) by (rewrite list_lookup_fmap, Hx; reflexivity). cbn [bind].
    rewrite (get_Some (fst <$> L) j yi) by (rewrite list_lookup_fmap, Hy; reflexivity). cbn [bind].
    rewrite set_Ok by (rewrite fmap_length; lia). cbn [bind].
    rewrite (get_Some (snd <$> L) j yv) by (rewrite list_lookup_fmap, Hy; reflexivity). cbn [bind].
    rewrite set_Ok by (rewrite fmap_length; lia). cbn [bind].
    rewrite set_Ok by (rewrite insert_length, fmap_length; lia). cbn [bind].
    rewrite set_Ok by (rewrite insert_length, fmap_length; lia). cbn [bind].
    eexists. split; [reflexivity|]. cbv zeta. replace (j + 1 - length P) with (S m) by (unfold m; lia).
    rewrite shufs_S. fold R1. rewrite <- Hsw, !swp_fmap. unfold swp. rewrite !list_lookup_fmap, Hx, Hy. simpl.
    replace (k + S m) with (k + m + 1) by lia. reflexivity.
  - rewrite Hs. cbv zeta. replace (length P + length R - length P) with (length R) by lia. reflexivity.
Qed.

Lemma randScale_ok w : (signed = false \/ 0 < w) -> randScale signed w = Ok tt.
Proof. intros H. unfold randScale. destruct signed; [|reflexivity]. destruct (Nat.eqb_spec w 0); [destruct H; [discriminate|lia]|reflexivity]. Qed.

(** Row [i] after the shuffle. *)
Definition shufRow (f : nat -> list (nat * V)) (i : nat) : list (nat * V) :=
  shufs (fun j => draw (pre f i + j) (length (f i) - 1)) (f i) (length (f i)).

Lemma rowsOf_cons (f : nat -> list (nat * V)) i n : i < n -> rowsOf f i n = f i ++ rowsOf f (S i) n.
Proof.
  intros H. unfold rowsOf. replace (n - i) with (S (n - S i)) by lia. reflexivity.
Qed.

Lemma shuffleArrays_ok (f : nat -> list (nat * V)) n nc : (signed = false \/ forall i, i < n -> f i <> []) ->
  shuffleArrays signed draw n (rowptr (assemble f n nc)) (fst <$> rowsOf f 0 n) (snd <$> rowsOf f 0 n) =
  Ok (fst <$> rowsOf (shufRow f) 0 n, snd <$> rowsOf (shufRow f) 0 n).
Proof.
  intros He. unfold shuffleArrays.
  destruct (for_inv (fun i (s : nat * list nat * list V) =>
     s = (pre f i, fst <$> rowsOf (shufRow f) 0 i ++ rowsOf f i n, snd <$> rowsOf (shufRow f) 0 i ++ rowsOf f i n))
    (fun i s => offset <- get (rowptr (assemble f n nc)) i ;; e <- get (rowptr (assemble f n nc)) (i + 1) ;;
      _ <- randScale signed (e - offset) ;; shuffleRange draw offset e s)
    0 n (0, fst <$> rowsOf f 0 n, snd <$> rowsOf f 0 n)) as (s & -> & ->).
  - lia.
  - rewrite (rowsOf_nil (shufRow f)) by lia. reflexivity.
  - intros i s Hi ->. rewrite (get_Some _ _ _ (assemble_rowptr f n nc i ltac:(lia))). cbn [bind].
    rewrite (get_Some _ _ _ (assemble_rowptr f n nc (i + 1) ltac:(lia))). cbn [bind].
    rewrite Nat.add_1_r, pre_S. replace (pre f i + length (f i) - pre f i) with (length (f i)) by lia.
    rewrite randScale_ok by (destruct He as [He|He]; [left; exact He|right; specialize (He i ltac:(lia)); destruct (f i); [congruence|simpl; lia]]).
    cbn [bind].
    assert (Hpl : length (rowsOf (shufRow f) 0 i) = pre f i).
    { rewrite rowsOf_length, pre_0 by lia. rewrite Nat.sub_0_r.
      assert (Hp : forall m, m <= i -> pre (shufRow f) m = pre f m).
      { induction m as [|m IH]; intros Hm; [reflexivity|]. rewrite !pre_S, IH by lia. unfold shufRow at 1. rewrite shufs_length. reflexivity. }
      apply Hp. lia. }
    rewrite (rowsOf_cons f i n) by lia.
    pose proof (shuffleRange_ok (rowsOf (shufRow f) 0 i) (f i) (rowsOf f (S i) n) (pre f i)) as Hs.
    rewrite Hpl in Hs. rewrite Hs. cbv zeta. eexists. split; [reflexivity|].
    rewrite rowsOf_S by lia. rewrite <- app_assoc. reflexivity.
  - cbn [bind]. rewrite (rowsOf_nil f n n) by lia. rewrite app_nil_r. reflexivity.
Qed.
End Arrays.

Section Csr.
Context {V : Type} (signed : bool).

Lemma pre_shufRow (f : nat -> list (nat * V)) draw m : pre (shufRow draw f) m = pre f m.
Proof. induction m as [|m IH]; [reflexivity|]. rewrite !pre_S, IH. unfold shufRow at 1. rewrite shufs_length. reflexivity. Qed.

Lemma shuffleCsr_ok draw (X : csr V) : in_range draw -> wf X -> (signed = false \/ forall i, i < rows X -> row_entries X i <> []) ->
  shuffleCsr signed draw X = Ok (assemble (shufRow draw (row_entries X)) (rows X) (cols X)).
Proof.
  intros Hd Hw He. unfold shuffleCsr. set (f := row_entries X) in *.
  pose proof (wf_assemble X Hw) as E. fold f in E.
  rewrite (f_equal colids E : colids X = fst <$> rowsOf f 0 (rows X)), (f_equal values E : values X = snd <$> rowsOf f 0 (rows X)).
  rewrite (f_equal nnz E), (f_equal rowptr E).
  pose proof (shuffleArrays_ok signed draw Hd f (rows X) (cols X) He) as Hs.
  match type of Hs with _ = ?r => match goal with |- bind ?a _ = _ => replace a with r by (symmetry; exact Hs) end end.
  cbn [bind]. f_equal.
  unfold assemble. cbn [rows cols nnz rowptr]. rewrite pre_shufRow. f_equal.
  apply list_fmap_ext. intros i x _. symmetry. apply pre_shufRow.
Qed.

Lemma shuffle_reach (X X' : csr V) : wf X -> wf X' -> rows X' = rows X -> cols X' = cols X ->
  (forall i, i < rows X -> row_entries X' i ≡ₚ row_entries X i) ->
  exists draw, in_range draw /\ assemble (shufRow draw (row_entries X)) (rows X) (cols X) = X'.
Proof.
  intros Hw Hw' Hr Hc Hp.
  assert (H : forall n, n <= rows X -> exists draw, in_range draw /\ forall i, i < n -> shufRow draw (row_entries X) i = row_entries X' i).
  { induction n as [|n IH]; intros Hn; [exists (fun _ _ => 0); split; [intros ? ?; lia|intros; lia]|].
    destruct (IH ltac:(lia)) as (draw & Hd & Hi). set (f := row_entries X) in *.
    destruct (shufs_reach (f n) (row_entries X' n) (length (f n)) (Hp n ltac:(lia)) ltac:(lia)) as (t & Ht & E).
    exists (fun k b => if k <? pre f n then draw k b else Nat.min (t (k - pre f n)) b). split.
    { intros k b. destruct (k <? pre f n); [apply Hd|lia]. }
    intros i Hi'. destruct (decide (i = n)) as [->|Hne].
    - unfold shufRow. rewrite take_ge in E by (rewrite shufs_length; lia).
      rewrite take_ge in E by (rewrite (Permutation_length (Hp n ltac:(lia))); lia). rewrite <- E.
      apply shufs_ext. intros j Hj. destruct (Nat.ltb_spec (pre f n + j) (pre f n)); [lia|].
      replace (pre f n + j - pre f n) with j by lia. destruct (Ht j); lia.
    - rewrite <- (Hi i ltac:(lia)). unfold shufRow. apply shufs_ext. intros j Hj.
      destruct (Nat.ltb_spec (pre f i + j) (pre f n)); [reflexivity|].
      pose proof (pre_le f (S i) n ltac:(lia)). rewrite pre_S in *. lia. }
  destruct (H (rows X) ltac:(lia)) as (draw & Hd & Hi). exists draw. split; [exact Hd|].
  rewrite (wf_assemble X' Hw'), Hr, Hc. apply assemble_ext. exact Hi.
Qed.

Lemma shuffle_signed draw (X : csr V) : in_range draw -> wf X -> (exists i, i < rows X /\ row_entries X i = []) ->
  shuffleCsr true draw X = Err AssertFail.
Proof.
  intros Hd Hw (i & Hi & He). unfold shuffleCsr, shuffleArrays.
  enough (E : for_ 0 (rows X) (fun i s => offset <- get (rowptr X) i ;; e <- get (rowptr X) (i + 1) ;;
      _ <- randScale true (e - offset) ;; shuffleRange draw offset e s) (0, colids X, values X) = Err AssertFail) by (rewrite E; reflexivity).
  assert (G : forall m a (s : nat * list nat * list V), a <= i < a + m -> a + m <= rows X -> length (snd (fst s)) = nnz X -> length (snd s) = nnz X ->
    for_n m a (fun i (s : nat * list nat * list V) => offset <- get (rowptr X) i ;; e <- get (rowptr X) (i + 1) ;;
      _ <- randScale true (e - offset) ;; shuffleRange draw offset e s) s = Err AssertFail).
  2:{ unfold for_. apply G; simpl; rewrite ?(wf_colids X Hw), ?(wf_values X Hw); lia. }
  induction m as [|m IH]; intros a [[k ids] vals] Ha Hm Hl1 Hl2; [lia|]. simpl in Hl1, Hl2.
  destruct (row_bounds_wf X a Hw ltac:(lia)) as (b & e & Hb & Hee & Hle & Hen & _).
  cbn [for_n]. rewrite (get_Some _ _ _ Hb), (get_Some _ _ _ Hee). cbn [bind].
  pose proof (row_entries_length X a b e Hw ltac:(lia) Hb Hee) as HL.
  unfold randScale. cbn [andb]. destruct (Nat.eqb_spec (e - b) 0) as [E0|E0]; [reflexivity|]. cbn [negb assert_ bind].
  destruct (decide (a = i)) as [->|Hne]; [rewrite He in HL; simpl in HL; lia|].
  pose (L := zip ids vals).
  assert (HLl : length L = nnz X) by (unfold L; rewrite zip_with_length; lia).
  assert (Ei : ids = fst <$> L) by (unfold L; rewrite fst_zip by lia; reflexivity).
  assert (Ev : vals = snd <$> L) by (unfold L; rewrite snd_zip by lia; reflexivity).
  assert (EL : L = take b L ++ take (e - b) (drop b L) ++ drop e L).
  { rewrite <- (take_drop b L) at 1. f_equal. rewrite <- (take_drop (e - b) (drop b L)) at 1. f_equal. rewrite drop_drop. f_equal. lia. }
  pose proof (shuffleRange_ok draw Hd (take b L) (take (e - b) (drop b L)) (drop e L) k) as Hs.
  rewrite <- EL, <- Ei, <- Ev in Hs. rewrite take_length, take_length, drop_length in Hs.
  replace (b `min` length L) with b in Hs by lia. replace ((e - b) `min` (length L - b)) with (e - b) in Hs by lia.
  replace (b + (e - b)) with e in Hs by lia. rewrite Hs. cbv zeta. cbn [bind].
  apply IH; [lia|lia|..]; cbn [fst snd]; rewrite fmap_length, !app_length, shufs_length, !take_length, !drop_length; lia.
Qed.
End Csr.
