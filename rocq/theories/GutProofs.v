(** Facts about GutModel. *)
From stdpp Require Import gmap.
From Coq Require Import ZArith.
From Verif Require Import GutModel GutSpec BaseProofs Assemble.
From Verif Require Import Base Spec.
Local Open Scope list_scope.

Section Key.
Context {V : Type}.
Implicit Types (A : gm V) (its : list (Z * Z * V)).

Definition key (t : Z * Z * V) : nat * nat := (Z.to_nat (fst (fst t)), Z.to_nat (snd (fst t))).
End Key.

Section Build.
Context {V : Type} (minV : V -> V -> V).
Implicit Types (A : gm V) (its : list (Z * Z * V)).
(** The value at a place is the least of the tuples there. *)
Lemma buildEnt_lookup its p :
  buildEnt minV its !! p = match snd <$> filter (fun t => key t = p) its with [] => None | v :: vs => Some (foldl minV v vs) end.
Proof.
  unfold buildEnt. induction its as [|t its IH] using rev_ind; [apply lookup_empty|].
  rewrite foldl_app. cbn [foldl]. rewrite filter_app, fmap_app. destruct t as [[r c] v].
  change (Z.to_nat r, Z.to_nat c) with (key (r, c, v)).
  destruct (decide (key (r, c, v) = p)) as [<-|Hne].
  - rewrite lookup_partial_alter, IH. rewrite (filter_cons_True (fun t => key t = key (r, c, v))) by reflexivity. rewrite filter_nil. cbn.
    destruct (snd <$> filter (fun t => key t = key (r, c, v)) its) as [|w ws]; [reflexivity|]. cbn. rewrite foldl_app. reflexivity.
  - rewrite lookup_partial_alter_ne by exact Hne. rewrite IH. rewrite (filter_cons_False (fun t => key t = p)) by exact Hne. rewrite filter_nil. cbn. rewrite app_nil_r. reflexivity.
Qed.
Lemma buildEnt_some its p : is_Some (buildEnt minV its !! p) <-> exists t, t ∈ its /\ key t = p.
Proof.
  rewrite buildEnt_lookup. destruct (filter (fun t => key t = p) its) as [|t l] eqn:E; cbn.
  - split; [intros [? ?]; discriminate|]. intros (t & Ht & Hk). assert (t ∈ filter (fun t => key t = p) its) as H by (apply elem_of_list_filter; auto). rewrite E in H. inversion H.
  - split; [|eauto]. intros _. exists t. assert (t ∈ filter (fun t => key t = p) its) as H by (rewrite E; left). apply elem_of_list_filter in H as [? ?]. auto.
Qed.
Lemma buildEnt_uniq its p t : t ∈ its -> key t = p -> NoDup its -> (forall t', t' ∈ its -> key t' = p -> t' = t) -> buildEnt minV its !! p = Some (snd t).
Proof.
  intros Ht Hk Hn Hu. rewrite buildEnt_lookup.
  assert (filter (fun t => key t = p) its = [t]) as ->; [|reflexivity].
  assert (N : NoDup (filter (fun t => key t = p) its)) by (apply NoDup_filter, Hn).
  assert (M : forall x, x ∈ filter (fun t => key t = p) its <-> x = t).
  { intros x. rewrite elem_of_list_filter. split; [intros [? ?]; auto|intros ->; auto]. }
  destruct (filter (fun t => key t = p) its) as [|x [|y l]].
  - assert (t ∈ []) as H by (apply M; reflexivity). inversion H.
  - f_equal. apply M. left.
  - apply NoDup_cons in N as [N _]. destruct N. assert (x = t) as -> by (apply M; left). assert (y = t) as -> by (apply M; right; left). left.
Qed.

End Build.

Section Range.
Context {V : Type}.
Implicit Types (A : gm V) (its : list (Z * Z * V)).
Lemma inRange_ok m n its : forallb (inRange m n) its = true <-> forall t, t ∈ its -> (0 <= fst (fst t) < Z.of_nat m)%Z /\ (0 <= snd (fst t) < Z.of_nat n)%Z.
Proof.
  rewrite forallb_forall. split.
  - intros H t Ht. specialize (H t (proj1 (elem_of_list_In _ _) Ht)). destruct t as [[r c] v]. cbn in *. lia.
  - intros H t Ht. apply elem_of_list_In in Ht. specialize (H t Ht). destruct t as [[r c] v]. cbn in *. lia.
Qed.
End Range.

Section Wf.
Context {V : Type} (minV : V -> V -> V).
Implicit Types (A : gm V) (its : list (Z * Z * V)).
Lemma grbBuild_wf m n its : gm_wf (grbBuild minV m n its).
Proof.
  intros i j v. unfold grbBuild. cbn [gm_ent gm_rows gm_cols]. destruct (forallb (inRange m n) its) eqn:E; [|rewrite lookup_empty; discriminate].
  intros H. pose proof (proj1 (inRange_ok m n its) E) as R. destruct (proj1 (buildEnt_some minV its (i, j))) as (t & Ht & Hk); [rewrite H; eauto|].
  specialize (R t Ht). unfold key in Hk. injection Hk as <- <-. lia.
Qed.

End Wf.

Section Trans.
Context {V : Type}.
Implicit Types (A : gm V) (its : list (Z * Z * V)).
#[local] Instance swap_inj : Inj (=) (=) (fun p : nat * nat => (snd p, fst p)).
Proof. intros [a b] [c d] E. cbn in E. congruence. Qed.
Lemma transEnt_lookup (E : gmap (nat * nat) V) i j : transEnt E !! (i, j) = E !! (j, i).
Proof.
  unfold transEnt. change (i, j) with ((fun p : nat * nat => (snd p, fst p)) (j, i)). apply (lookup_kmap _).
Qed.
End Trans.

Section Symm.
Context {V : Type} (plusV : V -> V -> V).
Implicit Types (A : gm V) (its : list (Z * Z * V)).
Lemma grbSymm_lookup A i j : gm_rows A = gm_cols A -> gm_ent (grbSymm plusV A) !! (i, j) =
  match gm_ent A !! (i, j), gm_ent A !! (j, i) with Some x, Some y => Some (plusV x y) | Some x, None => Some x | None, o => o end.
Proof.
  intros E. unfold grbSymm. rewrite E, Nat.eqb_refl. cbn [gm_ent]. rewrite lookup_union_with, transEnt_lookup.
  destruct (gm_ent A !! (i, j)), (gm_ent A !! (j, i)); reflexivity.
Qed.

End Symm.

Section Sort.
Context {V : Type}.
Implicit Types (A : gm V) (its : list (Z * Z * V)).
(** ** Sorting by degree *)
Lemma count_ok (l : list (nat * nat * V)) n (cnts : list (nat * nat)) : (forall t, t ∈ l -> fst (fst t) < n) -> length cnts = n ->
  exists cnts' : list (nat * nat), foldM (fun (cnts : list (nat * nat)) '(r, _, _) => c <- get cnts r ;; set_ cnts r (fst c + 1, snd c)) l cnts = Ok cnts' /\ length cnts' = n /\
    forall i a b, cnts !! i = Some (a, b) -> cnts' !! i = Some (a + length (filter (fun e => fst (fst e) = i) l), b).
Proof.
  revert cnts. induction l as [|[[r c] v] l IH]; intros cnts Hr Hl.
  - exists cnts. split; [reflexivity|]. split; [exact Hl|]. intros i a b H. rewrite filter_nil. cbn. rewrite Nat.add_0_r. exact H.
  - assert (Hlt : r < n) by (apply (Hr (r, c, v)); left). destruct (lookup_lt_is_Some_2 cnts r) as [[a b] Hab]; [lia|].
    cbn [foldM]. rewrite (get_Some _ _ _ Hab), bind_Ok, set_Ok by lia. rewrite bind_Ok.
    destruct (IH (<[r := (a + 1, b)]> cnts)) as (cnts' & E & L & H); [intros t Ht; apply Hr; right; exact Ht|rewrite insert_length; exact Hl|].
    cbn [fst snd] in *. rewrite E. exists cnts'. split; [reflexivity|]. split; [exact L|]. intros i a' b' Hi. rewrite filter_cons.
    destruct (decide (i = r)) as [->|Hne].
    + rewrite Hab in Hi. injection Hi as <- <-. cbn [fst]. rewrite decide_True by reflexivity. cbn [length]. rewrite (H r (a + 1) b) by (apply list_lookup_insert; lia). f_equal. f_equal. lia.
    + cbn [fst]. rewrite decide_False by congruence. apply H. rewrite list_lookup_insert_ne by congruence. exact Hi.
Qed.

(** The position of a number in a list. *)
Definition posOf (l : list nat) (v : nat) : nat := match list_find (fun x => x = v) l with Some (i, _) => i | None => 0 end.
Lemma posOf_ok l i v : NoDup l -> l !! i = Some v -> posOf l v = i.
Proof.
  intros Hn Hi. unfold posOf. destruct (list_find (fun x => x = v) l) as [[k x]|] eqn:E.
  - apply list_find_Some in E as (Hk & -> & _). eapply NoDup_lookup; eassumption.
  - apply list_find_None in E. rewrite Forall_forall in E. destruct (E v); [eapply elem_of_list_lookup_2, Hi|reflexivity].
Qed.
Lemma posOf_permutes n l : l ≡ₚ seq 0 n -> permutes n (posOf l) /\ forall v, v < n -> l !! posOf l v = Some v.
Proof.
  intros P. assert (N : NoDup l) by (rewrite P; apply NoDup_seq). assert (L : length l = n) by (rewrite P; apply seq_length).
  assert (H : forall v, v < n -> l !! posOf l v = Some v).
  { intros v Hv. assert (v ∈ l) as Hi by (rewrite P; apply elem_of_seq; lia). apply elem_of_list_lookup in Hi as [i Hi]. rewrite (posOf_ok l i v N Hi). exact Hi. }
  split; [split|exact H].
  - intros v Hv. rewrite <- L. eapply lookup_lt_Some, H, Hv.
  - intros v w Hv Hw E. pose proof (H v Hv) as H1. rewrite E in H1. rewrite (H w Hw) in H1. congruence.
Qed.
Lemma mapping_ok (cnts : list (nat * nat)) n : snd <$> cnts ≡ₚ seq 0 n ->
  exists mp, for_ 0 n (fun i mapping => c <- get cnts i ;; set_ mapping (snd c) (Some i)) (replicate n None) = Ok mp /\
    length mp = n /\ forall v, v < n -> mp !! v = Some (Some (posOf (snd <$> cnts) v)).
Proof.
  intros P. assert (L : length cnts = n) by (rewrite <- (fmap_length snd), P; apply seq_length).
  assert (N : NoDup (snd <$> cnts)) by (rewrite P; apply NoDup_seq).
  set (I := fun k (mp : list (option nat)) => length mp = n /\ forall i c, i < k -> cnts !! i = Some c -> mp !! snd c = Some (Some i)).
  destruct (for_inv I (fun i mapping => c <- get cnts i ;; set_ mapping (snd c) (Some i)) 0 n (replicate n None)) as (mp & E & Lm & H).
  - lia.
  - split; [apply replicate_length|]. lia.
  - intros i mp Hi (Lm & H). destruct (lookup_lt_is_Some_2 cnts i) as [c Hc]; [lia|]. rewrite (get_Some _ _ _ Hc), bind_Ok.
    assert (Hs : (snd <$> cnts) !! i = Some (snd c)) by (rewrite list_lookup_fmap, Hc; reflexivity).
    assert (snd c < n). { assert (snd c ∈ snd <$> cnts) as Q by (eapply elem_of_list_lookup_2, Hs). rewrite P in Q. apply elem_of_seq in Q. lia. }
    rewrite set_Ok by lia. eexists. split; [reflexivity|]. split; [rewrite insert_length; exact Lm|].
    intros k c' Hk Hc'. destruct (decide (k = i)) as [->|].
    + rewrite Hc in Hc'. injection Hc' as <-. apply list_lookup_insert. lia.
    + rewrite list_lookup_insert_ne; [apply H; [lia|exact Hc']|]. intros Q. assert (k = i); [|congruence]. eapply NoDup_lookup; [exact N| |exact Hs]. rewrite list_lookup_fmap, Hc', Q. reflexivity.
  - exists mp. split; [exact E|]. split; [exact Lm|]. intros v Hv. destruct (posOf_permutes n (snd <$> cnts) P) as [[P1 _] P2].
    pose proof (P2 v Hv) as Q. rewrite list_lookup_fmap in Q. destruct (cnts !! posOf (snd <$> cnts) v) as [c|] eqn:Ec; [|discriminate]. injection Q as <-. apply H; [apply P1, Hv|exact Ec].
Qed.

(** The tuples with the new numbers. *)
Definition renum (p : nat -> nat) (t : nat * nat * V) : Z * Z * V := (Z.of_nat (p (fst (fst t))), Z.of_nat (p (snd (fst t))), snd t).
Lemma renum_ok n mp p (l : list (nat * nat * V)) acc : length mp = n -> (forall v, v < n -> mp !! v = Some (Some (p v))) ->
  (forall t, t ∈ l -> fst (fst t) < n) ->
  foldM (fun acc '(r, c, v) => r <- getI mp r ;; c <- getI mp c ;; Ok (acc ++ [(Z.of_nat r, Z.of_nat c, v)])) l acc =
    if decide (Forall (fun t => snd (fst t) < n) l) then Ok (acc ++ (renum p <$> l)) else Err OutOfBounds.
Proof.
  intros Lm Hm. revert acc. induction l as [|[[r c] v] l IH]; intros acc Hr.
  - rewrite decide_True by constructor. cbn. rewrite app_nil_r. reflexivity.
  - cbn [foldM]. assert (Hlt : r < n) by (apply (Hr (r, c, v)); left). unfold getI at 1. rewrite (Hm r Hlt). cbn [bind].
    destruct (decide (c < n)) as [Hc|Hc].
    + unfold getI at 1. rewrite (Hm c Hc). cbn [bind]. rewrite IH by (intros t Ht; apply Hr; right; exact Ht).
      destruct (decide (Forall _ l)) as [F|F], (decide (Forall _ ((r, c, v) :: l))) as [F'|F']; try reflexivity.
      * rewrite fmap_cons, <- app_assoc. reflexivity.
      * destruct F'. constructor; [exact Hc|exact F].
      * apply Forall_cons in F' as [_ F']. contradiction.
    + unfold getI. rewrite (lookup_ge_None_2 mp) by lia. cbn. rewrite decide_False; [reflexivity|]. intros F. apply Forall_cons in F as [F _]. exact (Hc F).
Qed.

End Sort.

Section Sorted.
Context {V : Type} (minV : V -> V -> V).
Implicit Types (A : gm V) (its : list (Z * Z * V)).
Lemma sortByDegree_eq srt l A : sort_greater srt -> gm_wf A -> extracted A l ->
  exists cnts, snd <$> cnts ≡ₚ seq 0 (gm_rows A) /\ StronglySorted (fun a b => ~ pair_lt a b) cnts /\
    (forall c, c ∈ cnts -> fst c = degree A (snd c)) /\
    sortByDegree minV srt l A = (if decide (Forall (fun t => snd (fst t) < gm_rows A) l)
      then Ok (grbBuild minV (gm_rows A) (gm_cols A) (renum (posOf (snd <$> cnts)) <$> l)) else Err OutOfBounds).
Proof.
  intros Hs W X. set (n := gm_rows A).
  assert (Hr : forall t, t ∈ l -> fst (fst t) < n).
  { intros [[r c] v] Ht. unfold extracted in X. rewrite X in Ht. apply elem_of_map_to_list in Ht. apply (W r c v Ht). }
  set (c0 := (fun i => (0, i)) <$> seq 0 n). assert (L0 : length c0 = n) by (unfold c0; rewrite fmap_length, seq_length; reflexivity).
  destruct (count_ok l n c0 Hr L0) as (c1 & E1 & L1 & H1).
  assert (H1' : forall i, i < n -> c1 !! i = Some (degree A i, i)).
  { intros i Hi. rewrite (H1 i 0 i) by (unfold c0; rewrite list_lookup_fmap, lookup_seq_lt by exact Hi; reflexivity). f_equal. f_equal. unfold degree. cbn. unfold extracted in X. rewrite X. reflexivity. }
  assert (P1 : snd <$> c1 = seq 0 n).
  { apply list_eq. intros i. rewrite list_lookup_fmap. destruct (decide (i < n)).
    - rewrite H1', lookup_seq_lt by assumption. reflexivity.
    - rewrite !lookup_ge_None_2 by (rewrite ?seq_length; lia). reflexivity. }
  destruct (Hs c1) as [Q1 Q2]. assert (P2 : snd <$> srt c1 ≡ₚ seq 0 n) by (rewrite Q1, P1; reflexivity).
  exists (srt c1). split; [exact P2|]. split; [exact Q2|]. split.
  - intros c Hc. rewrite Q1 in Hc. apply elem_of_list_lookup in Hc as [i Hi]. assert (i < n) by (rewrite <- L1; eapply lookup_lt_Some, Hi). rewrite H1' in Hi by assumption. injection Hi as <-. reflexivity.
  - unfold sortByDegree. fold n c0. rewrite E1, bind_Ok. destruct (mapping_ok (srt c1) n P2) as (mp & -> & Lm & Hm). rewrite bind_Ok.
    rewrite (renum_ok n mp (posOf (snd <$> srt c1)) l [] Lm Hm Hr). destruct (decide _); reflexivity.
Qed.

(** The matrix built from renumbered tuples. *)
Lemma renum_build p n A l : permutes n p -> gm_wf A -> extracted A l -> gm_rows A = n -> gm_cols A = n ->
  let A' := grbBuild minV n n (renum p <$> l) in
  (forall i j, i < n -> j < n -> gm_ent A' !! (p i, p j) = gm_ent A !! (i, j)) /\
  (forall i, i < n -> degree A' (p i) = degree A i) /\
  map_to_list (gm_ent A') ≡ₚ ((fun t => (p (fst (fst t)), p (snd (fst t)), snd t)) <$> l).
Proof.
  intros [Pr Pi] W X Hr Hc A'.
  assert (Rg : forall t, t ∈ l -> fst (fst t) < n /\ snd (fst t) < n).
  { intros [[r c] v] Ht. unfold extracted in X. rewrite X in Ht. apply elem_of_map_to_list in Ht. rewrite <- Hr at 1. rewrite <- Hc. apply (W r c v Ht). }
  assert (Nd : NoDup l) by (unfold extracted in X; rewrite X; apply NoDup_map_to_list).
  assert (Uk : forall t t', t ∈ l -> t' ∈ l -> fst t = fst t' -> t = t').
  { intros [k v] [k' v'] H1 H2 E. cbn in E. subst k'. unfold extracted in X. rewrite X in H1, H2. apply elem_of_map_to_list in H1, H2. congruence. }
  assert (Fr : forallb (inRange n n) (renum p <$> l) = true).
  { apply inRange_ok. intros t Ht. apply elem_of_list_fmap in Ht as (x & -> & Hx). destruct (Rg x Hx) as [R1 R2]. apply Pr in R1, R2. cbn. lia. }
  assert (Ek : forall t : nat * nat * V, key (renum p t) = (p (fst (fst t)), p (snd (fst t)))) by (intros t; unfold key, renum; cbn; rewrite !Nat2Z.id; reflexivity).
  assert (Inj : forall t t' : nat * nat * V, t ∈ l -> t' ∈ l -> key (renum p t) = key (renum p t') -> t = t').
  { intros t t' Ht Ht' E. rewrite !Ek in E. injection E as E1 E2. destruct (Rg t Ht), (Rg t' Ht'). apply Uk; [assumption..|]. destruct t as [[? ?] ?], t' as [[? ?] ?]. cbn in *. f_equal; apply Pi; assumption. }
  assert (Nd' : NoDup (renum p <$> l)).
  { clear -Nd Inj. induction Nd as [|t l Hn Hd IH]; [constructor|]. rewrite fmap_cons. constructor; [|apply IH; intros; apply Inj; [right..|]; assumption].
    intros H. apply elem_of_list_fmap in H as (t' & E & Ht'). assert (t = t') by (apply Inj; [left|right; exact Ht'|rewrite E; reflexivity]). subst t'. contradiction. }
  assert (Lk : forall i j, i < n -> j < n -> gm_ent A' !! (p i, p j) = gm_ent A !! (i, j)).
  { intros i j Hi Hj. unfold A', grbBuild. cbn [gm_ent]. rewrite Fr. destruct (gm_ent A !! (i, j)) as [v|] eqn:E.
    - assert (Ht : (i, j, v) ∈ l) by (unfold extracted in X; rewrite X; apply elem_of_map_to_list, E).
      rewrite (buildEnt_uniq minV (renum p <$> l) (p i, p j) (renum p (i, j, v))); [reflexivity|apply elem_of_list_fmap; eauto|apply Ek|exact Nd'|].
      intros t' Ht' Hk. apply elem_of_list_fmap in Ht' as (x & -> & Hx). f_equal. apply Inj; [exact Hx|exact Ht|]. rewrite Hk, Ek. reflexivity.
    - destruct (buildEnt minV (renum p <$> l) !! (p i, p j)) as [v|] eqn:E'; [|reflexivity]. exfalso.
      destruct (proj1 (buildEnt_some minV (renum p <$> l) (p i, p j))) as (t & Ht & Hk); [rewrite E'; eauto|]. apply elem_of_list_fmap in Ht as (x & -> & Hx).
      rewrite Ek in Hk. injection Hk as K1 K2. destruct (Rg x Hx). apply Pi in K1, K2; try assumption. unfold extracted in X. rewrite X in Hx. destruct x as [[? ?] ?]. cbn in *. subst. apply elem_of_map_to_list in Hx. congruence. }
  assert (Pm : map_to_list (gm_ent A') ≡ₚ ((fun t => (p (fst (fst t)), p (snd (fst t)), snd t)) <$> l)).
  { apply NoDup_Permutation; [apply NoDup_map_to_list| |].
    - clear -Nd Inj Ek. induction Nd as [|t l Hn Hd IH]; [constructor|]. rewrite fmap_cons. constructor; [|apply IH; intros; apply Inj; [right..|]; assumption].
      intros H. apply elem_of_list_fmap in H as (t' & E & Ht'). assert (t = t'); [|subst t'; contradiction]. apply Inj; [left|right; exact Ht'|]. rewrite !Ek. congruence.
    - intros [[a b] v]. rewrite elem_of_map_to_list, elem_of_list_fmap. split.
      + intros H. assert (S : is_Some (buildEnt minV (renum p <$> l) !! (a, b))) by (unfold A', grbBuild in H; cbn [gm_ent] in H; rewrite Fr in H; rewrite H; eauto).
        apply buildEnt_some in S as (t & Ht & Hk). apply elem_of_list_fmap in Ht as (x & -> & Hx). rewrite Ek in Hk. injection Hk as <- <-. destruct (Rg x Hx) as [R1 R2].
        rewrite (Lk _ _ R1 R2) in H. exists x. split; [|exact Hx]. unfold extracted in X. rewrite X in Hx. destruct x as [[x1 x2] xv]. cbn in *. apply elem_of_map_to_list in Hx. congruence.
      + intros ([[x1 x2] xv] & E & Hx). cbn in E. injection E as -> -> ->. destruct (Rg _ Hx) as [R1 R2]. cbn in R1, R2. rewrite (Lk _ _ R1 R2). unfold extracted in X. rewrite X in Hx. apply elem_of_map_to_list, Hx. }
  split; [exact Lk|]. split; [|exact Pm]. intros i Hi. unfold degree. rewrite Pm. unfold extracted in X. rewrite <- X.
  clear -Rg Pi Hi. induction l as [|t l IH]; [reflexivity|]. rewrite fmap_cons, !filter_cons. cbn [fst]. destruct (Rg t ltac:(left)) as [R1 _].
  specialize (IH ltac:(intros; apply Rg; right; assumption)).
  destruct (decide (fst (fst t) = i)) as [->|Hne].
  - rewrite decide_True by reflexivity. cbn [length]. f_equal. exact IH.
  - rewrite decide_False by (intros E; apply Hne, Pi; assumption). exact IH.
Qed.

End Sorted.

Section Comp.
Context {V : Type}.
Implicit Types (A : gm V) (its : list (Z * Z * V)).
(** ** Compressed form *)
Definition rowOf A (i : nat) : list (nat * V) := omap (fun j => (fun v => (j, v)) <$> gm_ent A !! (i, j)) (seq 0 (gm_cols A)).
Lemma rowOf_elem A i j v : gm_wf A -> (j, v) ∈ rowOf A i <-> gm_ent A !! (i, j) = Some v.
Proof.
  intros W. unfold rowOf. rewrite elem_of_list_omap. split.
  - intros (k & _ & E). destruct (gm_ent A !! (i, k)) eqn:Q; [|discriminate]. cbn in E. injection E as -> ->. exact Q.
  - intros H. exists j. split; [apply elem_of_seq; pose proof (W _ _ _ H); lia|]. rewrite H. reflexivity.
Qed.
Lemma rowOf_sorted A i : StronglySorted lt (fst <$> rowOf A i).
Proof.
  unfold rowOf. generalize 0 as a. induction (gm_cols A) as [|n IH]; intros a; [constructor|]. cbn [seq omap list_omap].
  destruct (gm_ent A !! (i, a)) as [v|]; cbn; [|apply IH]. constructor; [apply IH|]. apply Forall_forall. intros x Hx. apply elem_of_list_fmap in Hx as ([k w] & -> & Hk).
  apply elem_of_list_omap in Hk as (j & Hj & E). apply elem_of_seq in Hj. destruct (gm_ent A !! (i, j)); [|discriminate]. cbn in E. injection E as <- _. cbn. lia.
Qed.
Definition csrOf A : csr V := assemble (rowOf A) (gm_rows A) (gm_cols A).
Lemma csrOf_repr A : gm_wf A -> repr A (csrOf A).
Proof.
  intros W. unfold repr, csrOf. split; [apply assemble_wf; intros i c v _ H; apply (rowOf_elem A i c v W) in H; apply (W _ _ _ H)|].
  split; [intros i Hi; change (rows (assemble (rowOf A) (gm_rows A) (gm_cols A))) with (gm_rows A) in Hi; unfold row_cols; rewrite assemble_row by exact Hi; apply rowOf_sorted|].
  split; [reflexivity|]. split; [reflexivity|]. intros i j v Hi. rewrite assemble_row by exact Hi. apply rowOf_elem, W.
Qed.
End Comp.
