(** Proofs about Intersect. *)
From stdpp Require Import numbers.
From Verif Require Import IsectModel BaseProofs ConcProofs ParProofs ScanProofs LegacyScanProofs WorkProofs Assemble.
From Verif Require DriverBase MatStatements.
From Verif Require Import Base Spec.

Lemma seq_at {X : Type} (f : nat -> X) k i : (f <$> seq 0 k) !! i = if decide (i < k) then Some (f i) else None.
Proof.
  rewrite list_lookup_fmap. destruct (decide (i < k)); [rewrite lookup_seq_lt by lia; reflexivity|].
  rewrite lookup_ge_None_2; [reflexivity|rewrite seq_length; lia].
Qed.

Section Merge.
Context {V W X : Type} (addop : V -> W -> X).

(** The merge of two rows. *)
Fixpoint mrg (fuel : nat) (ra : list (nat * V)) (rb : list (nat * W)) : list (nat * X) :=
  match fuel with
  | O => []
  | S fuel' =>
    match ra, rb with
    | (c, a) :: ra', (d, b) :: rb' =>
      if c <? d then mrg fuel' ra' rb else if d <? c then mrg fuel' ra rb' else (c, addop a b) :: mrg fuel' ra' rb'
    | _, _ => []
    end
  end.

Lemma mrg_first fuel ra rb x : x ∈ mrg fuel ra rb -> exists a, (fst x, a) ∈ ra.
Proof.
  revert ra rb. induction fuel as [|fuel IH]; intros ra rb; cbn [mrg]; [intros Hx; inversion Hx|].
  destruct ra as [|[c a] ra]; [intros Hx; inversion Hx|]. destruct rb as [|[d b] rb]; [intros Hx; inversion Hx|].
  destruct (c <? d); [|destruct (d <? c)].
  - intros Hx. apply IH in Hx as [a' Hx]. exists a'. right. exact Hx.
  - apply IH.
  - intros Hx. apply elem_of_cons in Hx as [->|Hx]; [exists a; left|]. apply IH in Hx as [a' Hx]. exists a'. right. exact Hx.
Qed.
Lemma sorted_first {Y : Type} (c : nat) (a : Y) l x : StronglySorted lt (fst <$> (c, a) :: l) -> x ∈ l -> c < fst x.
Proof.
  intros Hs Hx. rewrite fmap_cons in Hs. apply StronglySorted_inv in Hs as [_ Hs]. rewrite Forall_forall in Hs. apply Hs, elem_of_list_fmap_1, Hx.
Qed.
Lemma mrg_sorted fuel ra rb : StronglySorted lt (fst <$> ra) -> StronglySorted lt (fst <$> mrg fuel ra rb).
Proof.
  revert ra rb. induction fuel as [|fuel IH]; intros ra rb Hs; cbn [mrg]; [constructor|].
  destruct ra as [|[c a] ra]; [constructor|]. destruct rb as [|[d b] rb]; [constructor|].
  pose proof Hs as Hs'. rewrite fmap_cons in Hs'. apply StronglySorted_inv in Hs' as [Hs' _].
  destruct (c <? d); [auto|]. destruct (d <? c); [auto|]. rewrite fmap_cons. constructor; [auto|].
  rewrite Forall_forall. intros y Hy. apply elem_of_list_fmap in Hy as (x & -> & Hx). apply mrg_first in Hx as [a' Hx].
  apply (sorted_first c a ra (fst x, a') Hs Hx).
Qed.
Lemma mrg_elem fuel ra rb x : length ra + length rb < fuel -> StronglySorted lt (fst <$> ra) -> StronglySorted lt (fst <$> rb) ->
  x ∈ mrg fuel ra rb <-> exists c a b, (c, a) ∈ ra /\ (c, b) ∈ rb /\ x = (c, addop a b).
Proof.
  revert ra rb. induction fuel as [|fuel IH]; intros ra rb Hf Ha Hb; [lia|]. cbn [mrg].
  destruct ra as [|[c a] ra]; [split; [intros Hx; inversion Hx|intros (? & ? & ? & Hx & _); inversion Hx]|].
  destruct rb as [|[d b] rb]; [split; [intros Hx; inversion Hx|intros (? & ? & ? & _ & Hx & _); inversion Hx]|].
  pose proof Ha as Ha'. pose proof Hb as Hb'. rewrite fmap_cons in Ha'. rewrite fmap_cons in Hb'. apply StronglySorted_inv in Ha' as [Ha' _]. apply StronglySorted_inv in Hb' as [Hb' _].
  simpl in Hf. destruct (Nat.ltb_spec c d) as [Hcd|Hcd]; [|destruct (Nat.ltb_spec d c) as [Hdc|Hdc]].
  - rewrite IH by (auto; simpl; lia). split.
    + intros (c' & a' & b' & H1 & H2 & ->). exists c', a', b'. split; [right; exact H1|auto].
    + intros (c' & a' & b' & H1 & H2 & ->). apply elem_of_cons in H1 as [[= -> ->]|H1]; [|eauto 10].
      exfalso. apply elem_of_cons in H2 as [[= -> ->]|H2]; [lia|]. pose proof (sorted_first d b rb _ Hb H2). simpl in *. lia.
  - rewrite IH by (auto; simpl; lia). split.
    + intros (c' & a' & b' & H1 & H2 & ->). exists c', a', b'. split; [exact H1|]. split; [right; exact H2|reflexivity].
    + intros (c' & a' & b' & H1 & H2 & ->). apply elem_of_cons in H2 as [[= -> ->]|H2]; [|eauto 10].
      exfalso. apply elem_of_cons in H1 as [[= -> ->]|H1]; [lia|]. pose proof (sorted_first c a ra _ Ha H1). simpl in *. lia.
  - assert (c = d) as <- by lia. rewrite elem_of_cons, IH by (auto; lia). split.
    + intros [->|(c' & a' & b' & H1 & H2 & ->)].
      * exists c, a, b. split; [left|]. split; [left|reflexivity].
      * exists c', a', b'. split; [right; exact H1|]. split; [right; exact H2|reflexivity].
    + intros (c' & a' & b' & H1 & H2 & ->). apply elem_of_cons in H1 as [E1|H1].
      * injection E1 as -> ->. apply elem_of_cons in H2 as [E2|H2].
        -- injection E2 as ->. left. reflexivity.
        -- pose proof (sorted_first c b rb _ Hb H2). simpl in *. lia.
      * apply elem_of_cons in H2 as [E2|H2].
        -- injection E2 as -> ->. pose proof (sorted_first c a ra _ Ha H1). simpl in *. lia.
        -- right. eauto 10.
Qed.
End Merge.

(** Two lists with strictly increasing first components and the same elements are equal. *)
Lemma sorted_pairs_eq (V : Type) (l l' : list (nat * V)) : StronglySorted lt (fst <$> l) -> StronglySorted lt (fst <$> l') ->
  (forall x, x ∈ l <-> x ∈ l') -> l = l'.
Proof.
  revert l'. induction l as [|[c a] l IH]; intros l' H1 H2 He.
  - destruct l' as [|y l']; [reflexivity|]. exfalso. assert (Hy : y ∈ []) by (apply He; left). inversion Hy.
  - destruct l' as [|[d b] l']; [exfalso; assert (Hy : (c, a) ∈ []) by (apply He; left); inversion Hy|].
    assert (Hca : (c, a) ∈ (d, b) :: l') by (apply He; left). assert (Hdb : (d, b) ∈ (c, a) :: l) by (apply He; left).
    assert (E : (c, a) = (d, b)).
    { apply elem_of_cons in Hca as [E|Hca]; [exact E|]. apply elem_of_cons in Hdb as [E|Hdb]; [symmetry; exact E|].
      pose proof (sorted_first _ _ _ _ H2 Hca). pose proof (sorted_first _ _ _ _ H1 Hdb). simpl in *. lia. }
    injection E as <- <-. f_equal. apply IH.
    + rewrite fmap_cons in H1. apply StronglySorted_inv in H1. tauto.
    + rewrite fmap_cons in H2. apply StronglySorted_inv in H2. tauto.
    + intros x. specialize (He x). rewrite !elem_of_cons in He. split; intros Hx.
      * destruct (proj1 He (or_intror Hx)) as [->|]; [|assumption]. pose proof (sorted_first _ _ _ _ H1 Hx). simpl in *. lia.
      * destruct (proj2 He (or_intror Hx)) as [->|]; [|assumption]. pose proof (sorted_first _ _ _ _ H2 Hx). simpl in *. lia.
Qed.

Section Loops.
Context {V : Type} (addop : V -> V -> V).
Lemma isectLoop_ok fuel (A B : csr V) ra rb a0 a1 b0 b1 ids vals : length ra + length rb < fuel ->
  a1 = a0 + length ra -> b1 = b0 + length rb ->
  (forall k c v, ra !! k = Some (c, v) -> colids A !! (a0 + k) = Some c /\ values A !! (a0 + k) = Some v) ->
  (forall k c v, rb !! k = Some (c, v) -> colids B !! (b0 + k) = Some c /\ values B !! (b0 + k) = Some v) ->
  isectLoop addop fuel A B a0 a1 b0 b1 ids vals = Ok (ids ++ (fst <$> mrg addop fuel ra rb), vals ++ (snd <$> mrg addop fuel ra rb)).
Proof.
  revert ra rb a0 b0 ids vals. induction fuel as [|fuel IH]; intros ra rb a0 b0 ids vals Hf Ha1 Hb1 HA HB; [lia|].
  cbn [isectLoop mrg]. destruct ra as [|[c a] ra].
  { simpl in Ha1. rewrite Ha1, Nat.add_0_r, Nat.eqb_refl. simpl. rewrite !app_nil_r. reflexivity. }
  destruct rb as [|[d b] rb].
  { simpl in Hb1. rewrite Hb1, Nat.add_0_r, Nat.eqb_refl, andb_comm. simpl. rewrite !app_nil_r. reflexivity. }
  simpl in Ha1, Hb1, Hf. destruct (Nat.eqb_spec a0 a1); [lia|]. destruct (Nat.eqb_spec b0 b1); [lia|]. cbn [negb andb].
  destruct (HA 0 c a eq_refl) as [Hca Hva]. destruct (HB 0 d b eq_refl) as [Hcb Hvb]. rewrite Nat.add_0_r in Hca, Hva, Hcb, Hvb.
  rewrite (get_Some _ _ _ Hca), bind_Ok, (get_Some _ _ _ Hcb), bind_Ok.
  assert (HA' : forall k c0 v, ra !! k = Some (c0, v) -> colids A !! (a0 + 1 + k) = Some c0 /\ values A !! (a0 + 1 + k) = Some v).
  { intros k c0 v Hk. replace (a0 + 1 + k) with (a0 + S k) by lia. apply HA. exact Hk. }
  assert (HB' : forall k c0 v, rb !! k = Some (c0, v) -> colids B !! (b0 + 1 + k) = Some c0 /\ values B !! (b0 + 1 + k) = Some v).
  { intros k c0 v Hk. replace (b0 + 1 + k) with (b0 + S k) by lia. apply HB. exact Hk. }
  destruct (c <? d); [apply IH; simpl; auto; lia|]. destruct (d <? c); [apply IH; simpl; auto; lia|].
  rewrite (get_Some _ _ _ Hva), bind_Ok, (get_Some _ _ _ Hvb), bind_Ok. rewrite (IH ra rb) by (auto; lia).
  rewrite !fmap_cons, <- !app_assoc. reflexivity.
Qed.


(** The loop of CSC::intersect: [done] entries are already stored. *)
Lemma cscIsect_ok fuel (ids_in : list nat) (vals_in : list V) ri j k ra rb idx ids vals :
  length ra + length rb < fuel -> length ids_in = j + length ra -> length ri = k + length rb ->
  (forall p c v, ra !! p = Some (c, v) -> ids_in !! (j + p) = Some c /\ vals_in !! (j + p) = Some v) ->
  (forall p c u, rb !! p = Some (c, u) -> ri !! (k + p) = Some c) ->
  forall out, out = mrg (fun (a : V) (_ : unit) => a) fuel ra rb ->
  idx + length out <= length ids -> idx + length out <= length vals ->
  cscIsectLoop fuel ids_in vals_in (length ids_in) ri (length ri) j k idx ids vals =
    Ok (take idx ids ++ (fst <$> out) ++ drop (idx + length out) ids, take idx vals ++ (snd <$> out) ++ drop (idx + length out) vals, idx + length out).
Proof.
  revert ra rb j k idx ids vals. induction fuel as [|fuel IH]; intros ra rb j k idx ids vals Hf Hj Hk HA HB out Hout Hi Hv; [lia|].
  revert Hout. cbn [cscIsectLoop mrg]. destruct ra as [|[c a] ra].
  { intros ->. simpl in Hj. destruct (Nat.ltb_spec j (length ids_in)); [lia|]. simpl. rewrite !Nat.add_0_r, !take_drop. reflexivity. }
  destruct rb as [|[d []] rb].
  { intros ->. simpl in Hk. destruct (Nat.ltb_spec k (length ri)); [lia|]. rewrite andb_comm. simpl. rewrite !Nat.add_0_r, !take_drop. reflexivity. }
  simpl in Hj, Hk, Hf. destruct (Nat.ltb_spec j (length ids_in)); [|lia]. destruct (Nat.ltb_spec k (length ri)); [|lia]. cbn [andb].
  destruct (HA 0 c a eq_refl) as [Hca Hva]. pose proof (HB 0 d tt eq_refl) as Hcb. rewrite Nat.add_0_r in Hca, Hva, Hcb.
  rewrite (get_Some _ _ _ Hcb), bind_Ok, (get_Some _ _ _ Hca), bind_Ok.
  assert (HA' : forall p c0 v, ra !! p = Some (c0, v) -> ids_in !! (j + 1 + p) = Some c0 /\ vals_in !! (j + 1 + p) = Some v).
  { intros p c0 v Hp. replace (j + 1 + p) with (j + S p) by lia. apply HA. exact Hp. }
  assert (HB' : forall p c0 u, rb !! p = Some (c0, u) -> ri !! (k + 1 + p) = Some c0).
  { intros p c0 u Hp. replace (k + 1 + p) with (k + S p) by lia. apply (HB _ _ u). exact Hp. }
  destruct (Nat.ltb_spec d c); [destruct (Nat.ltb_spec c d); [lia|]; intros Hout; eapply IH; [| | | | |exact Hout|exact Hi|exact Hv]; simpl; auto; lia|].
  destruct (Nat.ltb_spec c d); [intros Hout; eapply IH; [| | | | |exact Hout|exact Hi|exact Hv]; simpl; auto; lia|].
  intros ->. cbn [length] in Hi, Hv. rewrite (get_Some _ _ _ Hva), bind_Ok. rewrite set_Ok by lia. rewrite bind_Ok, set_Ok by lia. rewrite bind_Ok.
  rewrite (IH ra rb (j + 1) (k + 1) (idx + 1) _ _ ltac:(lia) ltac:(lia) ltac:(lia) HA' HB' _ eq_refl) by (rewrite ?insert_length; auto; lia).
  assert (Hdr : forall (Y : Type) (l : list Y) x q, drop (idx + 1 + q) (<[idx:=x]> l) = drop (idx + S q) l).
  { intros Y l x q. rewrite drop_insert_gt by lia. f_equal. lia. }
  assert (Htk : forall (Y : Type) (l : list Y) x, idx < length l -> take (idx + 1) (<[idx:=x]> l) = take idx l ++ [x]).
  { intros Y l x Hl. rewrite Nat.add_1_r. rewrite (take_S_r _ _ x) by (apply list_lookup_insert; exact Hl). rewrite take_insert by lia. reflexivity. }
  cbn [length]. rewrite !Hdr, !Htk, !fmap_cons by lia. rewrite <- !app_assoc. simpl. do 2 f_equal. lia.
Qed.
End Loops.

Section Isect.
Context {V : Type} (dflt : V) (addop : V -> V -> V) (top : nat).
Notation mem := (gmap loc (icell V)).
Notation ev := (@event loc (icell V)).

Lemma isectMem_lookup (is : list (list nat)) (vs : list (list V)) nz a i : isectMem is vs nz !! (a, i) =
  if decide (a = xVecI) then XIs <$> is !! i else if decide (a = xVecV) then XVs <$> vs !! i else if decide (a = xRowNz) then XN <$> nz !! i else None.
Proof.
  unfold isectMem, vecMem. rewrite !lookup_union, !cells_lookup, !list_lookup_fmap.
  destruct (decide (a = xVecI)) as [->|]; [simpl; destruct (is !! i); reflexivity|].
  destruct (decide (a = xVecV)) as [->|]; [simpl; destruct (vs !! i); reflexivity|].
  destruct (decide (a = xRowNz)) as [->|]; [simpl; destruct (nz !! i); reflexivity|reflexivity].
Qed.
Lemma copyMem_lookup (ids : list nat) (vals : list V) (is : list (list nat)) (vs : list (list V)) a i : copyMem ids vals is vs !! (a, i) =
  if decide (a = xIds) then XN <$> ids !! i else if decide (a = xVals) then XV <$> vals !! i else
  if decide (a = xVecI) then XIs <$> is !! i else if decide (a = xVecV) then XVs <$> vs !! i else None.
Proof.
  unfold copyMem, vecMem. rewrite !lookup_union, !cells_lookup, !list_lookup_fmap.
  destruct (decide (a = xIds)) as [->|]; [simpl; destruct (ids !! i); reflexivity|].
  destruct (decide (a = xVals)) as [->|]; [simpl; destruct (vals !! i); reflexivity|].
  destruct (decide (a = xVecI)) as [->|]; [simpl; destruct (is !! i); reflexivity|].
  destruct (decide (a = xVecV)) as [->|]; [simpl; destruct (vs !! i); reflexivity|reflexivity].
Qed.

Variables A B : csr V.
Hypothesis HwA : wf A.
Hypothesis HwB : wf B.
Hypothesis Hrows : rows A = rows B.
Let n := rows A.
(** Row [i] of the result. *)
Let ra := row_entries A.
Let rb := row_entries B.
Definition irow (i : nat) : list (nat * V) := mrg addop (S (length (row_entries A i) + length (row_entries B i))) (row_entries A i) (row_entries B i).

Lemma wf_row_get (X : csr V) i b e : wf X -> rowptr X !! i = Some b -> rowptr X !! (i + 1) = Some e ->
  forall k c v, row_entries X i !! k = Some (c, v) -> colids X !! (b + k) = Some c /\ values X !! (b + k) = Some v.
Proof.
  intros Hw Hb He k c v Hk. rewrite (row_entries_eq X i b e Hb He) in Hk. apply lookup_take_Some in Hk as [Hk _]. rewrite lookup_drop in Hk.
  apply zip_lookup; assumption.
Qed.

Definition evI (i : nat) : list ev :=
  [ERd (xVecI, i); ERd (xVecV, i); EWr (xVecI, i) (XIs (fst <$> irow i)); EWr (xVecV, i) (XVs (snd <$> irow i)); EWr (xRowNz, i) (XN (length (irow i)))].

Lemma isectRow_solo (m : mem) i : i < n -> m !! (xVecI, i) = Some (XIs []) -> m !! (xVecV, i) = Some (XVs []) -> is_Some (m !! (xRowNz, i)) ->
  exists mf, solo m (isectRow addop A B i) (evI i) tt mf.
Proof.
  intros Hi H1 H2 H3. unfold n in Hi.
  destruct (row_bounds_wf A i HwA Hi) as (ab & ae & Hab & Hae & Hale & _ & _).
  destruct (row_bounds_wf B i HwB ltac:(lia)) as (bb & be & Hbb & Hbe & Hble & _ & _).
  assert (La : length (row_entries A i) = ae - ab) by (eapply row_entries_length; eauto).
  assert (Lb : length (row_entries B i) = be - bb) by (eapply (row_entries_length B); eauto; lia).
  eexists. unfold isectRow.
  eapply solo_lift; [apply get_Some, Hab|]. eapply solo_lift; [apply get_Some, Hae|].
  eapply solo_lift; [apply get_Some, Hbb|]. eapply solo_lift; [apply get_Some, Hbe|].
  unfold evI. eapply solo_rd; [exact H1|]. cbn [pbind]. eapply solo_rd; [exact H2|]. cbn [pbind].
  rewrite <- La, <- Lb. eapply solo_lift.
  - apply (isectLoop_ok addop _ A B (row_entries A i) (row_entries B i)); [lia|lia|lia|eapply wf_row_get; eauto..].
  - cbn [fst snd app]. rewrite fmap_length. change (mrg addop _ (row_entries A i) (row_entries B i)) with (irow i).
    apply solo_wr; [rewrite H1; eauto|]. apply solo_wr; [rewrite lookup_insert_ne by (intros [=]); rewrite H2; eauto|].
    apply solo_wr; [rewrite !lookup_insert_ne by (intros [=]); exact H3|]. constructor.
Qed.

Let m0 : mem := isectMem (replicate n []) (replicate n []) (replicate n 0).
Let is1 := (fun i => fst <$> irow i) <$> seq 0 n.
Let vs1 := (fun i => snd <$> irow i) <$> seq 0 n.
Let nz1 := (fun i => length (irow i)) <$> seq 0 n.

Lemma parfor_isect : parfor_ends (isectRow addop A B) n m0 (isectMem is1 vs1 nz1) /\ parfor_race_free (isectRow addop A B) n m0.
Proof.
  set (own := fun i (l : loc) => snd l = i).
  set (wv := fun l : loc => Some (if decide (fst l = xVecI) then XIs (fst <$> irow (snd l)) else if decide (fst l = xVecV) then XVs (snd <$> irow (snd l)) else XN (length (irow (snd l))))).
  assert (Hsolo : forall i m, i < n -> (forall l, is_Some (m !! l) <-> is_Some (m0 !! l)) ->
    (forall l, own i l \/ (forall j, j < n -> ~ own j l) -> m !! l = m0 !! l) -> exists mf, solo m (isectRow addop A B i) (evI i) tt mf).
  { intros i m Hi Hd Ho. apply isectRow_solo; [exact Hi| | |].
    - rewrite Ho by (left; reflexivity). unfold m0. rewrite isectMem_lookup. simpl. rewrite lookup_replicate_2 by exact Hi. reflexivity.
    - rewrite Ho by (left; reflexivity). unfold m0. rewrite isectMem_lookup. simpl. rewrite lookup_replicate_2 by exact Hi. reflexivity.
    - rewrite Ho by (left; reflexivity). unfold m0. rewrite isectMem_lookup. simpl. rewrite lookup_replicate_2 by exact Hi. eauto. }
  assert (Hw : forall i l v, i < n -> EWr l v ∈ evI i -> own i l /\ wv l = Some v).
  { intros i l v Hi Hin. unfold evI in Hin. rewrite !elem_of_cons, elem_of_nil in Hin.
    destruct Hin as [H|[H|[H|[H|[H|[]]]]]]; [discriminate..| | |]; injection H as -> ->; split; reflexivity. }
  assert (Hr : forall i j l, i < n -> j < n -> ERd l ∈ evI i -> own j l -> j = i).
  { intros i j l _ _ Hin Ho. unfold evI in Hin. rewrite !elem_of_cons, elem_of_nil in Hin.
    destruct Hin as [H|[H|[H|[H|[H|[]]]]]]; try discriminate; injection H as ->; symmetry; exact Ho. }
  assert (Ha : forall i j l, i < n -> j < n -> EAny l ∈ evI i -> own j l -> j = i).
  { intros i j l _ _ Hin. unfold evI in Hin. rewrite !elem_of_cons, elem_of_nil in Hin. destruct Hin as [H|[H|[H|[H|[H|[]]]]]]; discriminate. }
  assert (Hx : forall i j l, i < n -> j < n -> own i l -> own j l -> i = j) by (unfold own; intros; congruence).
  split; [|exact (parfor_owned_race _ n m0 evI own wv Hsolo Hw Hr Ha Hx)].
  destruct (parfor_owned _ n m0 evI own wv Hsolo Hw Hr Ha Hx) as (m' & Hend & Hwr & Hkp).
  replace (isectMem is1 vs1 nz1) with m'; [exact Hend|]. apply map_eq. intros [a i]. rewrite isectMem_lookup. unfold is1, vs1, nz1. rewrite !seq_at.
  destruct (decide (i < n)) as [Hi|Hi].
  - destruct (decide (a = xVecI)) as [->|N1]; [|destruct (decide (a = xVecV)) as [->|N2]; [|destruct (decide (a = xRowNz)) as [->|N3]]].
    + apply (Hwr i); [exact Hi|]. unfold evI. do 2 right. left.
    + apply (Hwr i); [exact Hi|]. unfold evI. do 3 right. left.
    + apply (Hwr i); [exact Hi|]. unfold evI. do 4 right. left.
    + rewrite Hkp.
      * unfold m0. rewrite isectMem_lookup, !decide_False by assumption. reflexivity.
      * intros j v Hj Hin. unfold evI in Hin. rewrite !elem_of_cons, elem_of_nil in Hin. destruct Hin as [H|[H|[H|[H|[H|[]]]]]]; congruence.
  - rewrite Hkp.
    + unfold m0. rewrite isectMem_lookup, !(lookup_ge_None_2 (replicate n _)) by (rewrite replicate_length; lia). reflexivity.
    + intros j v Hj Hin. destruct (Hw j _ _ Hj Hin) as [Ho _]. unfold own in Ho. simpl in Ho. lia.
Qed.

(** Copying out. *)
Definition evC (i : nat) : list ev :=
  [ERd (xVecI, i)] ++ (imap (fun k x => EWr (xIds, pre irow i + k) (XN (fst x))) (irow i)) ++
  [ERd (xVecV, i)] ++ (imap (fun k x => EWr (xVals, pre irow i + k) (XV (snd x))) (irow i)).

Lemma solo_copyOut {X : Type} (m : mem) a (cell : X -> icell V) l off : (forall k, k < length l -> is_Some (m !! (a, off + k))) ->
  exists mf, solo m (copyOut a cell l off) (imap (fun k x => EWr (a, off + k) (cell x)) l) tt mf.
Proof.
  intros Hm. unfold copyOut.
  assert (H : exists mf, solo m (pfor_n (length l) off (fun j it =>
     match it with [] => Fail OutOfBounds | x :: it' => Wr (a, j) (cell x) (Ret it') end) l) (imap (fun k x => EWr (a, off + k) (cell x)) l) [] mf).
  { revert off m Hm. induction l as [|x l IH]; intros off m Hm; [eexists; constructor|].
    destruct (IH (S off) (<[(a, off) := cell x]> m)) as [mf Hmf].
    { intros k Hk. specialize (Hm (S k) ltac:(simpl; lia)). replace (S off + k) with (off + S k) by lia.
      rewrite lookup_insert_ne by (intros [=]; lia). exact Hm. }
    exists mf. cbn [length pfor_n pbind imap]. rewrite Nat.add_0_r. apply solo_wr; [specialize (Hm 0 ltac:(simpl; lia)); rewrite Nat.add_0_r in Hm; exact Hm|].
    erewrite imap_ext; [exact Hmf|]. intros k y _. simpl. do 2 f_equal. lia. }
  destruct H as [mf H]. exists mf. rewrite <- (app_nil_r (imap _ _)). eapply solo_bind; [exact H|constructor].
Qed.
Lemma imap_fmap_ev {X Y : Type} (f : X -> Y) (g : nat -> Y -> ev) l : imap g (f <$> l) = imap (fun k x => g k (f x)) l.
Proof. apply imap_fmap. Qed.

Let ids1 := fst <$> rowsOf irow 0 n.
Let vals1 := snd <$> rowsOf irow 0 n.
Let rp1 := pre irow <$> seq 0 (n + 1).
Let nn := pre irow n.

Lemma slice_uniq' i j p : pre irow i <= p < pre irow (S i) -> pre irow j <= p < pre irow (S j) -> i = j.
Proof.
  intros Hi Hj. destruct (Nat.lt_trichotomy i j) as [Hlt|[->|Hlt]]; [|reflexivity|].
  - pose proof (pre_le irow (S i) j ltac:(lia)). lia.
  - pose proof (pre_le irow (S j) i ltac:(lia)). lia.
Qed.
Lemma slice_of' p : p < pre irow n -> exists i, i < n /\ pre irow i <= p < pre irow (S i).
Proof.
  generalize n. induction n0 as [|k IH]; [rewrite pre_0; lia|]. intros Hp.
  destruct (Nat.lt_ge_cases p (pre irow k)) as [H|H]; [destruct (IH H) as (i & Hi & ?); exists i; split; [lia|assumption]|exists k; lia].
Qed.
Lemma rows_at' i k : i < n -> k < length (irow i) -> rowsOf irow 0 n !! (pre irow i + k) = irow i !! k.
Proof.
  intros Hi Hk. rewrite (rowsOf_lookup irow i (S i) n) by (rewrite ?pre_S; lia). rewrite rowsOf_S, rowsOf_nil by lia. simpl. f_equal. lia.
Qed.
Lemma evC_elem i e : e ∈ evC i -> e = ERd (xVecI, i) \/ e = ERd (xVecV, i) \/
  exists k c v, irow i !! k = Some (c, v) /\ (e = EWr (xIds, pre irow i + k) (XN c) \/ e = EWr (xVals, pre irow i + k) (XV v)).
Proof.
  unfold evC. rewrite !elem_of_app, !elem_of_list_singleton. intros [->|[H|[->|H]]]; [auto| |auto|]; right; right;
    apply elem_of_lookup_imap in H as (k & [c v] & -> & Hk); exists k, c, v; auto.
Qed.

Lemma parfor_copy : let m1 := copyMem (replicate nn 0) (replicate nn dflt) is1 vs1 in
  parfor_ends (isectCopy rp1) n m1 (copyMem ids1 vals1 is1 vs1) /\ parfor_race_free (isectCopy rp1) n m1.
Proof.
  intros m1.
  set (own := fun i (l : loc) => (fst l = xIds \/ fst l = xVals) /\ pre irow i <= snd l < pre irow (S i)).
  set (wv := fun l : loc => (rowsOf irow 0 n !! snd l) ≫= (fun x => Some (if decide (fst l = xIds) then XN (fst x) else XV (snd x)))).
  assert (Hrp : forall i, i < n -> get rp1 i = Ok (pre irow i)).
  { intros i Hi. apply get_Some. unfold rp1. rewrite seq_at, decide_True by lia. reflexivity. }
  assert (Hsolo : forall i m, i < n -> (forall l, is_Some (m !! l) <-> is_Some (m1 !! l)) ->
    (forall l, own i l \/ (forall j, j < n -> ~ own j l) -> m !! l = m1 !! l) -> exists mf, solo m (isectCopy rp1 i) (evC i) tt mf).
  { intros i m Hi Hd Ho.
    assert (Hnn : forall k, k < length (irow i) -> pre irow i + k < nn).
    { intros k Hk. pose proof (pre_le irow (S i) n ltac:(lia)) as Hp. rewrite pre_S in Hp. unfold nn. lia. }
    assert (HI : m !! (xVecI, i) = Some (XIs (fst <$> irow i))).
    { rewrite Ho by (right; intros j _ [[H|H] _]; discriminate). unfold m1. rewrite copyMem_lookup. simpl. unfold is1. rewrite seq_at, decide_True by exact Hi. reflexivity. }
    assert (HV : m !! (xVecV, i) = Some (XVs (snd <$> irow i))).
    { rewrite Ho by (right; intros j _ [[H|H] _]; discriminate). unfold m1. rewrite copyMem_lookup. simpl. unfold vs1. rewrite seq_at, decide_True by exact Hi. reflexivity. }
    destruct (solo_copyOut m xIds (@XN V) (fst <$> irow i) (pre irow i)) as [m2 H2].
    { intros k Hk. rewrite fmap_length in Hk. apply Hd. unfold m1. rewrite copyMem_lookup. simpl. rewrite lookup_replicate_2 by auto. eauto. }
    destruct (solo_copyOut m2 xVals (@XV V) (snd <$> irow i) (pre irow i)) as [m3 H3].
    { intros k Hk. rewrite fmap_length in Hk. apply (DriverBase.solo_dom _ _ _ _ _ _ H2), Hd. unfold m1. rewrite copyMem_lookup. simpl. rewrite lookup_replicate_2 by auto. eauto. }
    rewrite imap_fmap in H2. rewrite imap_fmap in H3. exists m3. unfold isectCopy, evC. simpl app.
    eapply solo_rd; [exact HI|]. cbn [pbind]. eapply solo_lift; [apply Hrp, Hi|]. eapply solo_bind; [exact H2|].
    assert (HV2 : m2 !! (xVecV, i) = Some (XVs (snd <$> irow i))).
    { rewrite (DriverBase.solo_keep _ _ _ _ _ _ H2); [exact HV|]. intros v Hin. apply elem_of_lookup_imap in Hin as (k & x & E & _). discriminate. }
    eapply solo_rd; [exact HV2|]. cbn [pbind]. eapply solo_lift; [apply Hrp, Hi|exact H3]. }
  assert (Hw : forall i l v, i < n -> EWr l v ∈ evC i -> own i l /\ wv l = Some v).
  { intros i l v Hi Hin. apply evC_elem in Hin as [H|[H|(k & c & w & Hk & He)]]; [discriminate..|].
    pose proof (lookup_lt_Some _ _ _ Hk) as Hkl.
    assert (Hat : rowsOf irow 0 n !! (pre irow i + k) = Some (c, w)) by (rewrite rows_at' by auto; exact Hk).
    destruct He as [[= -> ->]|[= -> ->]]; unfold own, wv; rewrite pre_S; simpl; rewrite Hat; simpl; (split; [split; [auto|lia]|reflexivity]). }
  assert (Hr : forall i j l, i < n -> j < n -> ERd l ∈ evC i -> own j l -> j = i).
  { intros i j l _ _ Hin [Ho _]. apply evC_elem in Hin as [H|[H|(k & c & w & _ & [H|H])]]; try discriminate; injection H as ->; destruct Ho; discriminate. }
  assert (Ha : forall i j l, i < n -> j < n -> EAny l ∈ evC i -> own j l -> j = i).
  { intros i j l _ _ Hin. apply evC_elem in Hin as [H|[H|(k & c & w & _ & [H|H])]]; discriminate. }
  assert (Hx : forall i j l, i < n -> j < n -> own i l -> own j l -> i = j) by (intros i j l _ _ [_ H1] [_ H2]; eapply slice_uniq'; eauto).
  split; [|exact (parfor_owned_race _ n m1 evC own wv Hsolo Hw Hr Ha Hx)].
  destruct (parfor_owned _ n m1 evC own wv Hsolo Hw Hr Ha Hx) as (m' & Hend & Hwr & Hkp).
  replace (copyMem ids1 vals1 is1 vs1) with m'; [exact Hend|]. apply map_eq. intros [a p].
  assert (Hlen : length (rowsOf irow 0 n) = nn) by (rewrite rowsOf_length, pre_0 by lia; unfold nn; lia).
  destruct (decide (a = xIds \/ a = xVals)) as [Hav|Hna].
  - rewrite copyMem_lookup. unfold ids1, vals1. rewrite !list_lookup_fmap. destruct (Nat.lt_ge_cases p nn) as [Hp|Hp].
    + destruct (slice_of' p Hp) as (i & Hi & Hs). rewrite pre_S in Hs.
      set (k := p - pre irow i). assert (Hk : k < length (irow i)) by lia. replace p with (pre irow i + k) by lia.
      rewrite rows_at' by auto. destruct (lookup_lt_is_Some_2 (irow i) k Hk) as [[c v] Hcv]. rewrite Hcv. simpl.
      destruct Hav as [->| ->]; simpl; apply (Hwr i); auto; unfold evC; rewrite !elem_of_app.
      * right. left. apply elem_of_lookup_imap. exists k, (c, v). auto.
      * right. right. right. apply elem_of_lookup_imap. exists k, (c, v). auto.
    + rewrite (lookup_ge_None_2 (rowsOf irow 0 n)) by lia. rewrite Hkp.
      * unfold m1. rewrite copyMem_lookup, !(lookup_ge_None_2 (replicate nn _)) by (rewrite replicate_length; lia).
        destruct Hav as [->| ->]; reflexivity.
      * intros i v Hi Hin. destruct (Hw i _ _ Hi Hin) as [[_ Ho] _]. simpl in Ho.
        pose proof (pre_le irow (S i) n ltac:(lia)). unfold nn in Hp. lia.
  - rewrite Hkp.
    + unfold m1. rewrite !copyMem_lookup. rewrite !(decide_False (P := a = xIds)) by tauto. rewrite !(decide_False (P := a = xVals)) by tauto. reflexivity.
    + intros i v Hi Hin. destruct (Hw i _ _ Hi Hin) as [[Ho _] _]. simpl in Ho. tauto.
Qed.

Lemma psum_pre i : i <= n -> psum 0 Nat.add nz1 i = pre irow i.
Proof.
  induction i as [|i IH]; intros Hi; [reflexivity|]. rewrite pre_S, <- IH by lia. apply psum_S.
  unfold nz1. rewrite seq_at, decide_True by lia. reflexivity.
Qed.

Lemma is_inj (ia ib : list (list nat)) (va vb : list (list V)) na nb : isectMem ia va na = isectMem ib vb nb -> ia = ib /\ va = vb /\ na = nb.
Proof.
  intros E. assert (H : forall a i, isectMem ia va na !! (a, i) = isectMem ib vb nb !! (a, i)) by (rewrite E; reflexivity).
  split; [|split]; apply list_eq; intros i.
  - specialize (H xVecI i). rewrite !isectMem_lookup in H. simpl in H. destruct (ia !! i), (ib !! i); simpl in H; congruence.
  - specialize (H xVecV i). rewrite !isectMem_lookup in H. simpl in H. destruct (va !! i), (vb !! i); simpl in H; congruence.
  - specialize (H xRowNz i). rewrite !isectMem_lookup in H. simpl in H. destruct (na !! i), (nb !! i); simpl in H; congruence.
Qed.
Lemma copy_inj i1 i2 (v1 v2 : list V) is vs : copyMem i1 v1 is vs = copyMem i2 v2 is vs -> i1 = i2 /\ v1 = v2.
Proof.
  intros E. assert (H : forall a i, copyMem i1 v1 is vs !! (a, i) = copyMem i2 v2 is vs !! (a, i)) by (rewrite E; reflexivity).
  split; apply list_eq; intros i.
  - specialize (H xIds i). rewrite !copyMem_lookup in H. simpl in H. destruct (i1 !! i), (i2 !! i); simpl in H; congruence.
  - specialize (H xVals i). rewrite !copyMem_lookup in H. simpl in H. destruct (v1 !! i), (v2 !! i); simpl in H; congruence.
Qed.

Lemma nz1_length : length nz1 = n.
Proof. unfold nz1. rewrite fmap_length, seq_length. reflexivity. Qed.

Lemma intersect_main nt : cols A = cols B -> (N.of_nat (n + 1) < 2 ^ 17)%N ->
  intersect_ends dflt addop top nt A B (Some (assemble irow n (cols A))) /\
  (forall r, intersect_ends dflt addop top nt A B r -> r = Some (assemble irow n (cols A))).
Proof.
  intros Hc HN.
  assert (Hsc : lScan_always 0 Nat.add top nz1 (n + 1) nt (replicate (n + 1) (Some 0)) (Some <$> rp1)).
  { unfold lScan_always, lIsSeq. rewrite (proj2 (N.ltb_lt _ _) HN). rewrite seqScan_ok; try (intros; lia).
    - rewrite drop_ge by (rewrite replicate_length; lia). rewrite app_nil_r. f_equal. unfold rp1. rewrite <- list_fmap_compose.
      apply list_eq. intros i. rewrite !seq_at. destruct (decide (i < n + 1)); [|reflexivity]. simpl. rewrite psum_pre by lia. reflexivity.
    - rewrite nz1_length. lia.
    - rewrite replicate_length. lia. }
  destruct parfor_isect as [P1 _]. destruct parfor_copy as [P2 _].
  assert (Hg : get rp1 n = Ok nn) by (apply get_Some; unfold rp1; rewrite seq_at, decide_True by lia; reflexivity).
  unfold intersect_ends. rewrite Hrows, Hc, !Nat.eqb_refl. cbn [negb orb]. fold n. rewrite <- Hrows. split.
  - exists (assemble irow n (cols B)), is1, vs1, nz1. split; [reflexivity|]. split; [reflexivity|]. split; [reflexivity|].
    split; [exact P1|]. split; [exact Hsc|]. split; [exact Hg|]. exact P2.
  - intros r (C & is & vs & nz & -> & HrC & HcC & Q1 & Qs & Qn & Q2). f_equal.
    pose proof (MatStatements.parfor_ends_unique _ _ _ _ _ Q1 P1) as E. apply is_inj in E as (-> & -> & ->).
    assert (Erp : rowptr C = rp1).
    { unfold lScan_always in Qs, Hsc. assert (Es : lIsSeq (n + 1) = true) by (apply N.ltb_lt; exact HN). fold n in Qs. rewrite Es in Qs, Hsc.
      rewrite Hsc in Qs. injection Qs as Qs. apply (inj (fmap Some)) in Qs. symmetry. exact Qs. }
    rewrite Erp in *. fold n in Qn. rewrite Hg in Qn. injection Qn as Qn. fold n in Q2. rewrite <- Qn in Q2.
    pose proof (MatStatements.parfor_ends_unique _ _ _ _ _ Q2 P2) as E. apply copy_inj in E as [E1 E2].
    destruct C; simpl in *. subst. reflexivity.
Qed.

Lemma intersect_large nt : cols A = cols B -> (2 ^ 17 <= N.of_nat (n + 1))%N -> 1 <= nt <= n + 1 ->
  region_outcome (lRegion 0 Nat.add top nz1 (n + 1) nt) tt (lMem 0 (replicate (n + 1) (Some 0)) nt) (replicate nt tt) (Err OutOfBounds) /\
  ~ (exists r, intersect_ends dflt addop top nt A B r).
Proof.
  intros Hc HN Hnt.
  assert (Hf : region_outcome (lRegion 0 Nat.add top nz1 (n + 1) nt) tt (lMem 0 (replicate (n + 1) (Some 0)) nt) (replicate nt tt) (Err OutOfBounds)).
  { apply lregion_fails; try (intros; lia); [rewrite replicate_length; lia|rewrite nz1_length; lia]. }
  split; [exact Hf|]. intros (r & H). unfold intersect_ends in H. rewrite Hrows, Hc, !Nat.eqb_refl in H. cbn [negb orb] in H. rewrite <- Hrows in H.
  destruct H as (C & is & vs & nz & -> & HrC & HcC & Q1 & Qs & _).
  destruct parfor_isect as [P1 _]. pose proof (MatStatements.parfor_ends_unique _ _ _ _ _ Q1 P1) as E. apply is_inj in E as (-> & -> & ->).
  unfold lScan_always in Qs. fold n in Qs. replace (lIsSeq (n + 1)) with false in Qs by (symmetry; apply N.ltb_ge; exact HN).
  destruct Qs as (m & Qs & _). apply (region_always_outcome _ _ _ _ _ _ _ _ Qs) in Hf. discriminate.
Qed.
End Isect.
