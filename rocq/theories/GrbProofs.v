(** Ownership of arrays that move between GraphBLAS and the matrix classes. *)
From stdpp Require Import gmap.
From Verif Require Import GrbModel BaseProofs.
From Verif Require Import Base Spec.

Section GrbProofs.
Context {V : Type} (szV : nat).
Notation heap := (gmap nat (ablock V)).
Implicit Types (h own fr : heap) (p i x : ptr) (A : gmat) (Y : csr V).

Lemma single_free (n : nat) (b : ablock V) fr : {[n := b]} ##ₘ fr -> free_ (PBlk n) ({[n := b]} ∪ fr) = Ok fr.
Proof.
  intros D. apply map_disjoint_singleton_l in D. cbn [free_]. rewrite lookup_union_l by exact D. rewrite lookup_singleton.
  f_equal. rewrite <- insert_union_singleton_l. apply delete_insert, D.
Qed.
Lemma owns_free b p hp fr : owns b p hp -> hp ##ₘ fr -> free_ p (hp ∪ fr) = Ok fr.
Proof. intros [n]. apply single_free. Qed.
Lemma owns0_free b p hp fr : owns0 b p hp -> hp ##ₘ fr -> free_ p (hp ∪ fr) = Ok fr.
Proof. intros [n|_]; [apply single_free|]. intros _. rewrite map_empty_union. reflexivity. Qed.

Lemma stored_free own p i x rp ci (xs : list V) fr : stored own p i x rp ci xs -> own ##ₘ fr ->
  (h <- free_ p (own ∪ fr) ;; h <- free_ i h ;; free_ x h) = Ok fr.
Proof.
  intros (hp & hi & hx & -> & D1 & D2 & D3 & Op & Oi & Ox) D.
  apply map_disjoint_union_l in D as [Da D]. apply map_disjoint_union_l in D as [Db Dc].
  rewrite <- !(assoc_L (∪)). rewrite (owns_free _ _ _ _ Op) by (apply map_disjoint_union_r; split; [exact D1|]; apply map_disjoint_union_r; auto).
  cbn [bind]. rewrite (owns0_free _ _ _ _ Oi) by (apply map_disjoint_union_r; auto). cbn [bind]. apply (owns0_free _ _ _ _ Ox), Dc.
Qed.

Lemma gholds_free own A Y fr : gholds own A Y -> own ##ₘ fr ->
  (h <- free_ (g_p A) (own ∪ fr) ;; h <- free_ (g_i A) h ;; free_ (g_x A) h) = Ok fr.
Proof.
  intros H D. destruct (gh_arrays _ _ _ H) as [(_ & -> & -> & -> & ->)|(xs & S & _)]; [|apply (stored_free _ _ _ _ _ _ _ _ S D)].
  rewrite map_empty_union. reflexivity.
Qed.

Lemma stored_ptr own p i x rp ci (xs : list V) fr : stored own p i x rp ci xs -> exists b, blkI p (own ∪ fr) = Ok (b, rp).
Proof.
  intros (hp & hi & hx & -> & D1 & D2 & D3 & Op & Oi & Ox). destruct Op as [n]. exists n. cbn [blkI].
  rewrite <- (assoc_L (∪)). rewrite (lookup_union_Some_l _ _ n (BI rp)) by apply lookup_singleton. reflexivity.
Qed.

(** Packing with sizes that are large enough. *)
Lemma pack_ok bycol A Z ownA own p i x rp ci (xs : list V) psize isize xsize iso jum nv fr :
  gholds ownA A Z -> stored own p i x rp ci xs -> own ##ₘ ownA ∪ fr -> ownA ##ₘ fr -> rp !! vecs bycol A = Some nv ->
  8 * (vecs bycol A + 1) <= psize -> 8 * nv <= isize -> szV * (if iso : bool then 1 else nv) <= xsize ->
  grbPack szV bycol A p i x psize isize xsize iso jum (own ∪ (ownA ∪ fr)) =
    Ok (true, mkG (g_rows A) (g_cols A) bycol p i x psize isize xsize iso jum, PNull, PNull, PNull, own ∪ fr).
Proof.
  intros HA S D1 D2 Hnv H1 H2 H3. unfold grbPack. destruct (Nat.ltb_spec psize (8 * (vecs bycol A + 1))); [lia|].
  destruct (stored_ptr _ _ _ _ _ _ _ (ownA ∪ fr) S) as (b & ->). cbn [bind]. rewrite (get_Some _ _ _ Hnv). cbn [bind].
  destruct (Nat.ltb_spec isize (8 * nv)); [lia|]. destruct (Nat.ltb_spec xsize (szV * (if iso then 1 else nv))); [lia|]. cbn [orb].
  apply map_disjoint_union_r in D1 as [Da Db].
  rewrite (assoc_L (∪)), (map_union_comm own ownA) by exact Da. rewrite <- (assoc_L (∪)).
  pose proof (gholds_free _ _ _ (own ∪ fr) HA) as F. rewrite map_disjoint_union_r in F. specialize (F (conj (symmetry Da) D2)).
  destruct (free_ (g_p A) (ownA ∪ (own ∪ fr))) as [h1|]; [|discriminate]. cbn [bind] in F |- *.
  destruct (free_ (g_i A) h1) as [h2|]; [|discriminate]. cbn [bind] in F |- *. rewrite F. reflexivity.
Qed.

(** Packing with a size of the pointer array that is too small. *)
Lemma pack_small bycol A p i x psize isize xsize iso jum h : psize < 8 * (vecs bycol A + 1) ->
  grbPack szV bycol A p i x psize isize xsize iso jum h = Ok (false, A, p, i, x, h).
Proof. intros H. unfold grbPack. destruct (Nat.ltb_spec psize (8 * (vecs bycol A + 1))); [reflexivity|lia]. Qed.

Lemma stored_not_null own p i x rp ci (xs : list V) : stored own p i x rp ci xs -> isNull p = false.
Proof. intros (hp & hi & hx & _ & _ & _ & _ & Op & _). destruct Op. reflexivity. Qed.

(** An unpacked matrix, seen from the part of the heap that belongs to the matrix. *)
Lemma wf_eq Y Y' : wf Y -> wf Y' -> rows Y = rows Y' -> cols Y = cols Y' -> rowptr Y = rowptr Y' -> colids Y = colids Y' -> values Y = values Y' -> Y = Y'.
Proof.
  intros H H' E1 E2 E3 E4 E5. pose proof (wf_colids _ H) as N1. pose proof (wf_colids _ H') as N2. destruct Y, Y'; cbn in *. subst. reflexivity.
Qed.

Lemma singles_inj (h1 h2 k1 k2 : heap) : h1 ##ₘ h2 -> k1 ##ₘ k2 -> dom h1 = dom k1 -> h1 ∪ h2 = k1 ∪ k2 -> h1 = k1 /\ h2 = k2.
Proof.
  intros D1 D2 Ed E.
  assert (L : forall b, h1 !! b = k1 !! b /\ h2 !! b = k2 !! b).
  { intros b. assert (Eb : (h1 ∪ h2) !! b = (k1 ∪ k2) !! b) by (rewrite E; reflexivity).
    assert (Q : is_Some (h1 !! b) <-> is_Some (k1 !! b)) by (rewrite <- !elem_of_dom, Ed; reflexivity).
    specialize (D1 b). specialize (D2 b). unfold option_relation in *. rewrite !lookup_union in Eb. destruct Q as [Q1 Q2].
    destruct (h1 !! b) as [u|], (k1 !! b) as [w|].
    - destruct (h2 !! b), (k2 !! b); try contradiction. simpl in Eb. auto.
    - destruct Q1 as [? ?]; [eauto|discriminate].
    - destruct Q2 as [? ?]; [eauto|discriminate].
    - destruct (h2 !! b), (k2 !! b); simpl in Eb; auto. }
  split; apply map_eq; intros b; apply L.
Qed.

Lemma owns_dom b b' p (h k : heap) : owns b p h -> owns b' p k -> dom h = dom k.
Proof. intros [n] H. inversion H; subst. rewrite !dom_singleton_L. reflexivity. Qed.
Lemma owns0_dom b b' p (h k : heap) : owns0 b p h -> owns0 b' p k -> dom h = dom k.
Proof. intros [n|E] H; inversion H; subst; [rewrite !dom_singleton_L|]; reflexivity. Qed.
Lemma owns_val b b' p (h : heap) : owns b p h -> owns b' p h -> b = b'.
Proof.
  intros [n] H. remember (PBlk n) as q eqn:Eq. remember {[n := b]} as k eqn:Ek. destruct H as [m]. injection Eq as ->.
  apply (f_equal (lookup n)) in Ek. rewrite !lookup_singleton in Ek. congruence.
Qed.
Lemma owns0_val b b' p (h : heap) : owns0 b p h -> owns0 b' p h -> b = b' \/ p = PNull.
Proof.
  intros [n|E] H; [left|right; reflexivity]. remember (PBlk n) as q eqn:Eq. remember {[n := b]} as k eqn:Ek. destruct H as [m|]; [|discriminate]. injection Eq as ->.
  apply (f_equal (lookup n)) in Ek. rewrite !lookup_singleton in Ek. congruence.
Qed.
Lemma owns0I_val l l' p (h : heap) : owns0 (BI l) p h -> owns0 (BI l') p h -> l = l'.
Proof.
  intros H H'. destruct (owns0_val _ _ _ _ H H') as [E| ->]; [congruence|]. inversion H as [|E]; inversion H' as [|E']; subst.
  destruct E as [E|E], E' as [E'|E']; congruence.
Qed.
Lemma owns0V_val (l l' : list V) p (h : heap) : owns0 (BV l) p h -> owns0 (BV l') p h -> l = l'.
Proof.
  intros H H'. destruct (owns0_val _ _ _ _ H H') as [E| ->]; [congruence|]. inversion H as [|E]; inversion H' as [|E']; subst.
  destruct E as [E|E], E' as [E'|E']; congruence.
Qed.

Lemma stored_inj own own' fr fr' p i x rp rp' ci ci' (xs xs' : list V) : stored own p i x rp ci xs -> stored own' p i x rp' ci' xs' ->
  own ##ₘ fr -> own' ##ₘ fr' -> own ∪ fr = own' ∪ fr' -> own = own' /\ fr = fr' /\ rp = rp' /\ ci = ci' /\ xs = xs'.
Proof.
  intros (hp & hi & hx & -> & D1 & D2 & D3 & Op & Oi & Ox) (kp & ki & kx & -> & F1 & F2 & F3 & Pp & Pi & Px) D F E.
  destruct (singles_inj _ _ _ _ D F) as [E1 E2].
  { rewrite !dom_union_L. rewrite (owns_dom _ _ _ _ _ Op Pp), (owns0_dom _ _ _ _ _ Oi Pi), (owns0_dom _ _ _ _ _ Ox Px). reflexivity. }
  { exact E. }
  destruct (singles_inj hp (hi ∪ hx) kp (ki ∪ kx)) as [-> E3].
  { apply map_disjoint_union_r; auto. } { apply map_disjoint_union_r; auto. } { apply (owns_dom _ _ _ _ _ Op Pp). } { exact E1. }
  destruct (singles_inj hi hx ki kx D3 F3 (owns0_dom _ _ _ _ _ Oi Pi) E3) as [-> ->].
  pose proof (owns_val _ _ _ _ Op Pp) as Q. pose proof (owns0I_val _ _ _ _ Oi Pi). pose proof (owns0V_val _ _ _ _ Ox Px).
  repeat split; try assumption. congruence.
Qed.

Lemma wf_empty_unique Y Y' : wf Y -> wf Y' -> rows Y = rows Y' -> cols Y = cols Y' -> nnz Y = 0 -> nnz Y' = 0 -> Y = Y'.
Proof.
  intros H H' Er Ec E E'. apply wf_eq; try assumption.
  - apply list_eq. intros k. pose proof (wf_len _ H). pose proof (wf_len _ H').
    destruct (decide (k < rows Y + 1)).
    + assert (Z : forall Y, wf Y -> nnz Y = 0 -> k < rows Y + 1 -> rowptr Y !! k = Some 0).
      { clear. intros Y H E Hk. destruct (lookup_lt_is_Some_2 (rowptr Y) k) as [a Ha]; [rewrite (wf_len _ H); exact Hk|].
        assert (a <= nnz Y). { eapply (wf_mono_le Y k (rows Y)); [exact H|exact Ha|apply wf_last, H|lia]. } rewrite Ha. f_equal. lia. }
      rewrite (Z Y H E), (Z Y' H' E') by lia. reflexivity.
    + rewrite !lookup_ge_None_2 by lia. reflexivity.
  - pose proof (wf_colids _ H) as A1. pose proof (wf_colids _ H') as A2. rewrite E in A1. rewrite E' in A2. apply nil_length_inv in A1, A2. congruence.
  - pose proof (wf_values _ H) as A1. pose proof (wf_values _ H') as A2. rewrite E in A1. rewrite E' in A2. apply nil_length_inv in A1, A2. congruence.
Qed.

(** The part of the heap that belongs to a matrix and what it holds are determined. *)
Lemma gholds_inj own own' fr fr' A Y Y' : gholds own A Y -> gholds own' A Y' -> own ##ₘ fr -> own' ##ₘ fr' -> own ∪ fr = own' ∪ fr' ->
  own = own' /\ fr = fr' /\ Y = Y'.
Proof.
  intros H H' D D' E. pose proof (gh_wf _ _ _ H) as W. pose proof (gh_wf _ _ _ H') as W'.
  assert (Er : rows Y = rows Y') by (rewrite (gh_rows _ _ _ H), (gh_rows _ _ _ H'); reflexivity).
  assert (Ec : cols Y = cols Y') by (rewrite (gh_cols _ _ _ H), (gh_cols _ _ _ H'); reflexivity).
  destruct (gh_arrays _ _ _ H) as [(N & -> & P1 & P2 & P3)|(xs & S & I)], (gh_arrays _ _ _ H') as [(N' & -> & Q1 & Q2 & Q3)|(xs' & S' & I')].
  - rewrite !map_empty_union in E. split; [reflexivity|]. split; [exact E|]. apply wf_empty_unique; assumption.
  - apply stored_not_null in S'. rewrite P1 in S'. discriminate.
  - apply stored_not_null in S. rewrite Q1 in S. discriminate.
  - destruct (stored_inj _ _ _ _ _ _ _ _ _ _ _ _ _ S S' D D' E) as (-> & -> & Ep & Ei & Ex). split; [reflexivity|]. split; [reflexivity|].
    apply wf_eq; try assumption. unfold isoVals in *. destruct (g_iso A).
    + destruct I as (v & E1 & ->). destruct I' as (v' & E2 & ->). rewrite <- (wf_colids _ W), <- (wf_colids _ W'), Ei. congruence.
    + congruence.
Qed.

Lemma unpacked_inv bycol wi wj A h A' h' p i x iso jum nz own fr Y : unpacked bycol wi wj A h A' h' p i x iso jum nz ->
  h = own ∪ fr -> own ##ₘ fr -> gholds own A Y ->
  exists own' Y' xs, h' = own' ∪ fr /\ own' ##ₘ fr /\ A' = emptied A /\ stored own' p i x (rowptr Y') (colids Y') xs /\ isoVals iso xs Y' /\
    wf Y' /\ rows Y' = vecs bycol A /\ cols Y' = vlen bycol A /\ distinct_rows Y' /\ (jum = false -> sorted_rows Y') /\
    nnz Y' = nnz Y /\ nz = nnz Y /\ (forall a b v, ent bycol Y' a b v <-> ent (g_bycol A) Y a b v) /\
    iso = wi && g_iso A /\ (wj = false -> jum = false) /\ (wj = true -> bycol = g_bycol A -> jum = g_jum A).
Proof.
  intros (own1 & fr1 & own' & Y1 & Y' & xs & E1 & D1 & G1 & E2 & D2 & EA & S & I & W & R) E D G.
  destruct (gholds_inj _ _ _ _ _ _ _ G G1 D D1) as (<- & <- & <-); [congruence|]. exists own', Y', xs. tauto.
Qed.

Lemma gholds_emptied A : gholds ∅ (emptied A) (mkCsr (vecs (g_bycol A) A) (vlen (g_bycol A) A) 0 (replicate (vecs (g_bycol A) A + 1) 0) [] [] : csr V) .
Proof.
  set (n := vecs (g_bycol A) A). set (m := vlen (g_bycol A) A).
  assert (L : forall k, k < n + 1 -> replicate (n + 1) 0 !! k = Some 0) by (intros; apply lookup_replicate_2; assumption).
  assert (W : wf (mkCsr n m 0 (replicate (n + 1) 0) [] [] : csr V)).
  { constructor; cbn; [apply replicate_length|apply L; lia| |apply L; lia|reflexivity|reflexivity|intros k c Hc; discriminate Hc].
    intros k a b Ha Hb. apply lookup_replicate in Ha as [-> _]. apply lookup_replicate in Hb as [-> _]. lia. }
  assert (Hr : forall k, row_cols (mkCsr n m 0 (replicate (n + 1) 0) [] [] : csr V) k = []).
  { intros k. unfold row_cols, row_entries. cbn. destruct (_ !! k); [|reflexivity]. destruct (_ !! (k + 1)); [|reflexivity]. rewrite drop_nil, take_nil. reflexivity. }
  constructor; try exact W; try reflexivity.
  - intros k _. rewrite Hr. constructor.
  - intros _ k _. rewrite Hr. constructor.
  - left. auto.
Qed.
End GrbProofs.
