(** C65: matrices taken from GraphBLAS and given to it.  [gholds own A Y]: the GraphBLAS matrix [A] owns exactly the part [own]
    of the heap and holds the compressed rows (or columns) [Y] there; [csr_obj own o Y], [csc_obj own o B]: the same for an object
    of the repository (GrbSpec); [ent]: the entries.  [fr] is the rest of the heap. *)
From stdpp Require Import gmap.
From Verif Require Import GrbModel GrbProofs BaseProofs McaProofs Examples PropRef.
From Verif Require Import MaskHashModel MaskHashProofs Assemble PropMaskHash.
From Verif Require Import Base Spec.

Section C65.
Context {V : Type} (szV : nat).
Notation heap := (gmap nat (ablock V)).
Implicit Types (h own fr : heap) (o : obj) (A : gmat) (Y : csr V).

Lemma sorted_distinct Y : sorted_rows Y -> distinct_rows Y.
Proof. intros H i Hi. apply SSorted_NoDup, H, Hi. Qed.

(** CSR::get_grb_mat: the arrays of a sorted matrix move into the GraphBLAS matrix of the same sizes, with the true sizes in
    bytes; what that held before is released; nothing else changes; the destructor of the emptied object releases nothing.
    Other sizes stop it. *)
Theorem C65_csr_pack o A Y Z own ownA fr : wf Y -> sorted_rows Y -> csr_obj own o Y -> gholds ownA A Z -> own ##ₘ ownA ∪ fr -> ownA ##ₘ fr ->
  (g_rows A = rows Y -> g_cols A = cols Y ->
   exists o' o'' A', csrToGrb szV o A (own ∪ (ownA ∪ fr)) = Ok (o', A', own ∪ fr) /\
     gholds own A' Y /\ g_rows A' = g_rows A /\ g_cols A' = g_cols A /\ g_bycol A' = false /\ g_iso A' = false /\ true_sizes szV A' Y /\
     makeEmpty o' (own ∪ fr) = Ok (o'', own ∪ fr)) /\
  (g_rows A <> rows Y \/ g_cols A <> cols Y -> forall h, csrToGrb szV o A h = Err AssertFail).
Proof.
  intros W S O G D1 D2. destruct O as [Er Ec En Ez Ea]. split.
  - intros Hr Hc. unfold csrToGrb. rewrite Hr, Hc, Er, Ec, En, !Nat.eqb_refl. cbn [andb assert_ bind].
    rewrite (pack_ok szV false A Z ownA own (o_rp o) (o_ci o) (o_va o) _ _ _ _ _ _ false false (nnz Y) fr G Ea D1 D2); cbn [vecs]; try (rewrite Hr; apply wf_last, W); try lia.
    cbn [bind isNull andb assert_].
    eexists _, _, _. split; [reflexivity|]. split; [|repeat split; try assumption; try reflexivity].
    + constructor; cbn; try assumption; [congruence|congruence|apply sorted_distinct, S|auto|]. right. exists (values Y). split; [exact Ea|reflexivity].
    + unfold makeEmpty. cbn [o_nnz o_rows o_rp o_ci o_va freeIf notNull bind]. destruct (0 <? nnz Y), (0 <? rows Y); reflexivity.
  - intros H h. unfold csrToGrb. rewrite Er, Ec. destruct (Nat.eqb_spec (g_rows A) (rows Y)), (Nat.eqb_spec (g_cols A) (cols Y)); try reflexivity. lia.
Qed.

(** CSR(GrB_Matrix) and back: for a matrix kept by rows, in order and with its own value for each entry, the constructor yields
    an object with the same entries, sorted, and leaves the GraphBLAS matrix without entries; get_grb_mat then puts the same
    entries back, for any changes elsewhere in the heap in between; no array is lost or released twice. *)
Theorem C65_csr_roundtrip_partial A Y own fr r : gholds own A Y -> own ##ₘ fr -> g_bycol A = false -> g_iso A = false -> g_jum A = false ->
  csrOfGrb A (own ∪ fr) r ->
  exists o own' Y', r = Ok (o, emptied A, own' ∪ fr) /\ own' ##ₘ fr /\ csr_obj own' o Y' /\ gholds ∅ (emptied A) (mkCsr (g_rows A) (g_cols A) 0 (replicate (g_rows A + 1) 0) [] [] : csr V) /\
    wf Y' /\ sorted_rows Y' /\ rows Y' = rows Y /\ cols Y' = cols Y /\ nnz Y' = nnz Y /\ (forall a b v, ent false Y' a b v <-> ent false Y a b v) /\
    forall fr2, own' ##ₘ fr2 -> exists o' o'' A', csrToGrb szV o (emptied A) (own' ∪ fr2) = Ok (o', A', own' ∪ fr2) /\ gholds own' A' Y' /\ true_sizes szV A' Y' /\
      makeEmpty o' (own' ∪ fr2) = Ok (o'', own' ∪ fr2).
Proof.
  intros G D Hb Hi Hj (A' & h' & p & i & x & iso & jum & nz & U & ->).
  destruct (unpacked_inv _ _ _ _ _ _ _ _ _ _ _ _ _ own fr Y U eq_refl D G) as (own' & Y' & xs & -> & D' & -> & S & I & W & R1 & R2 & Di & So & N1 & -> & En & Ei & _ & Ej).
  rewrite Hi in Ei. cbn in Ei. subst iso. specialize (Ej eq_refl (eq_sym Hb)). rewrite Hj in Ej. subst jum. cbn in I. subst xs. rewrite Hb in En.
  specialize (So eq_refl). pose proof (gholds_emptied (V := V) A) as Ge. rewrite Hb in Ge. cbn [vecs vlen] in Ge.
  assert (R1' : rows Y' = g_rows A) by exact R1. assert (R2' : cols Y' = g_cols A) by exact R2.
  assert (O : csr_obj own' (mkObj (g_rows A) (g_cols A) (nnz Y) p i x true) Y') by (constructor; cbn; auto; congruence).
  eexists _, own', Y'. split; [reflexivity|]. split; [exact D'|]. split; [exact O|]. split; [exact Ge|]. split; [exact W|]. split; [exact So|].
  pose proof (gh_rows _ _ _ G) as Q1. pose proof (gh_cols _ _ _ G) as Q2. rewrite Hb in Q1, Q2. cbn in Q1, Q2.
  split; [congruence|]. split; [congruence|]. split; [exact N1|]. split; [exact En|].
  intros fr2 D2. assert (De : own' ##ₘ ∅ ∪ fr2) by (rewrite map_empty_union; exact D2).
  destruct (C65_csr_pack _ (emptied A) Y' _ own' ∅ fr2 W So O Ge De (map_disjoint_empty_l _)) as [P _].
  destruct P as (o' & o'' & A' & E & G' & _ & _ & _ & _ & T & M); [cbn; congruence|cbn; congruence|]. rewrite map_empty_union in E. exists o', o'', A'. auto.
Qed.

(** CSC(GrB_Matrix) and CSC::get_grb_mat, for matrices of any kind with as many rows as columns; and get_grb_mat alone for at least
    as many rows as columns. *)
Theorem C65_csc_pack_partial o A (B : csc V) Z own ownA fr : wf_csc B -> sorted_cols B -> csc_obj own o B -> gholds ownA A Z -> own ##ₘ ownA ∪ fr -> ownA ##ₘ fr ->
  g_rows A = c_rows B -> g_cols A = c_cols B -> c_cols B <= c_rows B ->
  exists o' o'' A', cscToGrb szV o A (own ∪ (ownA ∪ fr)) = Ok (o', A', own ∪ fr) /\
     gholds own A' (csc_tr B) /\ g_rows A' = g_rows A /\ g_cols A' = g_cols A /\ g_bycol A' = true /\ g_iso A' = false /\
     (true_sizes szV A' (csc_tr B) <-> c_rows B = c_cols B) /\
     cscMakeEmpty o' (own ∪ fr) = Ok (o'', own ∪ fr).
Proof.
  intros W S O G D1 D2 Hr Hc Hle. destruct O as [Er Ec En Ea]. unfold cscToGrb. rewrite Hr, Hc, Er, Ec, En, !Nat.eqb_refl. cbn [andb assert_ bind].
  rewrite (pack_ok szV true A Z ownA own (o_rp o) (o_ci o) (o_va o) _ _ _ _ _ _ false false (c_nnz B) fr G Ea D1 D2); cbn [vecs]; try (rewrite Hc; apply (wf_last _ W)); try lia.
  cbn [bind isNull andb assert_].
  eexists _, _, _. split; [reflexivity|]. split; [|split; [exact Hr|split; [exact Hc|split; [reflexivity|split; [reflexivity|split]]]]].
  - constructor; cbn; try assumption; [congruence|congruence|exact (sorted_distinct (csc_tr B) S)|auto|]. right. exists (c_values B). split; [exact Ea|reflexivity].
  - unfold true_sizes. cbn. lia.
  - unfold cscMakeEmpty. cbn [o_nnz o_cols o_rp o_ci o_va free_ bind]. destruct (0 <? c_nnz B), (0 <? c_cols B); reflexivity.
Qed.

Theorem C65_csc_roundtrip_partial A Y own fr r : gholds own A Y -> own ##ₘ fr -> g_rows A = g_cols A ->
  cscOfGrb A (own ∪ fr) r ->
  exists o own' B, r = Ok (o, emptied A, own' ∪ fr) /\ own' ##ₘ fr /\ csc_obj own' o B /\ wf_csc B /\ sorted_cols B /\ c_rows B = g_rows A /\ c_cols B = g_cols A /\
    c_nnz B = nnz Y /\ (forall a b v, (a, v) ∈ col_entries B b <-> ent (g_bycol A) Y a b v) /\
    forall fr2, own' ##ₘ fr2 -> exists o' o'' A', cscToGrb szV o (emptied A) (own' ∪ fr2) = Ok (o', A', own' ∪ fr2) /\ gholds own' A' (csc_tr B) /\ true_sizes szV A' (csc_tr B) /\
      cscMakeEmpty o' (own' ∪ fr2) = Ok (o'', own' ∪ fr2).
Proof.
  intros G D Hsq (A' & h' & p & i & x & nz & U & ->).
  destruct (unpacked_inv _ _ _ _ _ _ _ _ _ _ _ _ _ own fr Y U eq_refl D G) as (own' & Y' & xs & -> & D' & -> & S & I & W & R1 & R2 & Di & So & N1 & -> & En & _ & _ & _).
  cbn in I. subst xs. specialize (So eq_refl). cbn [vecs vlen] in R1, R2.
  set (B := mkCsc (g_rows A) (g_cols A) (nnz Y) (rowptr Y') (colids Y') (values Y') : csc V).
  assert (EB : csc_tr B = Y') by (unfold B, csc_tr; cbn; rewrite <- R1, <- R2, <- N1; destruct Y'; reflexivity).
  assert (WB : wf_csc B) by (unfold wf_csc; rewrite EB; exact W).
  assert (SB : sorted_cols B). { intros j Hj. unfold col_entries. rewrite EB. apply So. rewrite R1. exact Hj. }
  assert (O : csc_obj own' (mkObj (g_rows A) (g_cols A) (nnz Y) p i x true) B) by (constructor; cbn; auto).
  eexists _, own', B. split; [reflexivity|]. split; [exact D'|]. split; [exact O|]. split; [exact WB|]. split; [exact SB|].
  split; [reflexivity|]. split; [reflexivity|]. split; [reflexivity|].
  split; [intros a b v; unfold col_entries; rewrite EB; exact (En a b v)|].
  intros fr2 D2. assert (De : own' ##ₘ ∅ ∪ fr2) by (rewrite map_empty_union; exact D2).
  destruct (C65_csc_pack_partial _ (emptied A) B _ own' ∅ fr2 WB SB O (gholds_emptied A) De (map_disjoint_empty_l _)) as (o' & o'' & A' & E & G' & _ & _ & _ & _ & T & M); [reflexivity|reflexivity|cbn; lia|].
  rewrite map_empty_union in E. exists o', o'', A'. split; [exact E|]. split; [exact G'|]. split; [apply T; exact Hsq|exact M].
Qed.

(** Finding: CSC::get_grb_mat gives 8 (rows + 1) as the size of colptr.  With more columns than rows GraphBLAS refuses it and the
    assertion stops the program; with fewer, GraphBLAS is told more bytes than the array has. *)
Theorem C65_csc_wide_refuted o A (B : csc V) own h : csc_obj own o B -> g_rows A = c_rows B -> g_cols A = c_cols B -> c_rows B < c_cols B ->
  cscToGrb szV o A h = Err AssertFail.
Proof.
  intros [Er Ec En Ea] Hr Hc Hlt. unfold cscToGrb. rewrite Hr, Hc, Er, Ec, En, !Nat.eqb_refl. cbn [andb assert_ bind].
  rewrite pack_small by (cbn; lia). cbn [bind]. rewrite (stored_not_null _ _ _ _ _ _ _ Ea). reflexivity.
Qed.
Theorem C65_csc_size_refuted o A (B : csc V) Z own ownA fr : wf_csc B -> sorted_cols B -> csc_obj own o B -> gholds ownA A Z -> own ##ₘ ownA ∪ fr -> ownA ##ₘ fr ->
  g_rows A = c_rows B -> g_cols A = c_cols B -> c_cols B < c_rows B ->
  exists o' A', cscToGrb szV o A (own ∪ (ownA ∪ fr)) = Ok (o', A', own ∪ fr) /\ 8 * length (colptr B) < g_psize A'.
Proof.
  intros W S O G D1 D2 Hr Hc Hle. destruct O as [Er Ec En Ea]. unfold cscToGrb. rewrite Hr, Hc, Er, Ec, En, !Nat.eqb_refl. cbn [andb assert_ bind].
  rewrite (pack_ok szV true A Z ownA own (o_rp o) (o_ci o) (o_va o) _ _ _ _ _ _ false false (c_nnz B) fr G Ea D1 D2); cbn [vecs]; try (rewrite Hc; apply (wf_last _ W)); try lia.
  cbn [bind isNull andb assert_]. eexists _, _. split; [reflexivity|]. cbn. pose proof (wf_len _ W) as L. cbn in L. lia.
Qed.

(** Finding: the CSR constructor stops on every matrix GraphBLAS keeps with one value for all entries, and on every matrix
    kept by rows whose ids are out of order; GraphBLAS makes both by itself. *)
Theorem C65_iso_refuted A Y own fr r : gholds own A Y -> own ##ₘ fr -> g_iso A = true -> csrOfGrb A (own ∪ fr) r -> r = Err AssertFail.
Proof.
  intros G D Hi (A' & h' & p & i & x & iso & jum & nz & U & ->).
  destruct (unpacked_inv _ _ _ _ _ _ _ _ _ _ _ _ _ own fr Y U eq_refl D G) as (own' & Y' & xs & _ & _ & _ & _ & _ & _ & _ & _ & _ & _ & _ & _ & _ & -> & _).
  rewrite Hi. reflexivity.
Qed.
Theorem C65_jumbled_refuted A Y own fr r : gholds own A Y -> own ##ₘ fr -> g_bycol A = false -> g_jum A = true -> csrOfGrb A (own ∪ fr) r -> r = Err AssertFail.
Proof.
  intros G D Hb Hj (A' & h' & p & i & x & iso & jum & nz & U & ->).
  destruct (unpacked_inv _ _ _ _ _ _ _ _ _ _ _ _ _ own fr Y U eq_refl D G) as (own' & Y' & xs & _ & _ & _ & _ & _ & _ & _ & _ & _ & _ & _ & _ & _ & -> & _ & Ej).
  rewrite (Ej eq_refl (eq_sym Hb)), Hj. cbn. destruct (g_iso A); reflexivity.
Qed.

(** CSR(GrB_Matrix*, true): a copy of the entries; the GraphBLAS matrix keeps its own. *)
Theorem C65_dup_partial A Y own fr r : gholds own A Y -> own ##ₘ fr -> g_bycol A = false -> g_iso A = false -> g_jum A = false ->
  csrOfGrbDup A true (own ∪ fr) r ->
  exists o own' Y', r = Ok (o, Some A, own' ∪ (own ∪ fr)) /\ own' ##ₘ own ∪ fr /\ csr_obj own' o Y' /\ wf Y' /\ sorted_rows Y' /\
    rows Y' = rows Y /\ cols Y' = cols Y /\ (forall a b v, ent false Y' a b v <-> ent false Y a b v).
Proof.
  intros G D Hb Hi Hj (tmp & h0 & A' & h' & p & i & x & iso & jum & nz & (own1 & fr1 & cp & Y1 & E1 & D1 & G1 & Dc & Gc & -> & T1 & T2 & T3 & T4 & T5) & U & ->).
  destruct (gholds_inj _ _ _ _ _ _ _ G G1 D D1 E1) as (<- & <- & <-).
  destruct (unpacked_inv _ _ _ _ _ _ _ _ _ _ _ _ _ cp (own ∪ fr) Y U eq_refl Dc Gc) as (own' & Y' & xs & -> & D' & -> & S & I & W & R1 & R2 & Di & So & N1 & -> & En & Ei & _ & Ej).
  rewrite T4, Hi in Ei. cbn in Ei. subst iso. specialize (Ej eq_refl). rewrite T3, Hb in Ej. specialize (Ej eq_refl). rewrite T5, Hj in Ej. subst jum. cbn in I. subst xs. rewrite T3, Hb in En.
  cbn [vecs vlen] in R1, R2. pose proof (gh_rows _ _ _ G) as Q1. pose proof (gh_cols _ _ _ G) as Q2. rewrite Hb in Q1, Q2. cbn in Q1, Q2.
  eexists _, own', Y'. split; [reflexivity|]. split; [exact D'|]. split; [constructor; cbn; auto; congruence|]. split; [exact W|]. split; [exact (So eq_refl)|].
  split; [congruence|]. split; [congruence|]. exact En.
Qed.

(** Finding: there it does not look at the flag for one value: of such a matrix with more than one entry the object gets an array
    of one value for all of them. *)
Theorem C65_dup_iso_refuted A Y own fr r : gholds own A Y -> own ##ₘ fr -> g_bycol A = false -> g_iso A = true -> g_jum A = false -> 1 < nnz Y ->
  csrOfGrbDup A true (own ∪ fr) r ->
  exists o h v b, r = Ok (o, Some A, h) /\ o_nnz o = nnz Y /\ o_va o = PBlk b /\ h !! b = Some (BV [v]) /\ blkV (o_va o) h = Ok (b, [v]) /\ get [v] (o_nnz o - 1) = Err OutOfBounds.
Proof.
  intros G D Hb Hi Hj Hn (tmp & h0 & A' & h' & p & i & x & iso & jum & nz & (own1 & fr1 & cp & Y1 & E1 & D1 & G1 & Dc & Gc & -> & T1 & T2 & T3 & T4 & T5) & U & ->).
  destruct (gholds_inj _ _ _ _ _ _ _ G G1 D D1 E1) as (<- & <- & <-).
  destruct (unpacked_inv _ _ _ _ _ _ _ _ _ _ _ _ _ cp (own ∪ fr) Y U eq_refl Dc Gc) as (own' & Y' & xs & -> & D' & -> & S & I & W & R1 & R2 & Di & So & N1 & -> & En & Ei & _ & Ej).
  rewrite T4, Hi in Ei. cbn in Ei. subst iso. specialize (Ej eq_refl). rewrite T3, Hb in Ej. specialize (Ej eq_refl). rewrite T5, Hj in Ej. subst jum. cbn in I. destruct I as (v & -> & _).
  destruct S as (hp & hi & hx & -> & F1 & F2 & F3 & _ & _ & Ox). remember x as q eqn:Eq in Ox. destruct Ox as [b|[E|E]]; [subst x|discriminate|discriminate].
  apply map_disjoint_union_l in D' as [Da D']. apply map_disjoint_union_l in D' as [Db Dd].
  assert (L : (hp ∪ (hi ∪ {[b := BV [v]]}) ∪ (own ∪ fr)) !! b = Some (BV [v])).
  { rewrite map_disjoint_singleton_r in F2. rewrite map_disjoint_singleton_r in F3. apply lookup_union_Some_l. rewrite lookup_union_r by exact F2. rewrite lookup_union_r by exact F3. apply lookup_singleton. }
  eexists _, _, v, b. split; [reflexivity|]. split; [reflexivity|]. split; [reflexivity|]. split; [exact L|]. split; [cbn [o_va blkV]; rewrite L; reflexivity|].
  cbn [o_nnz]. unfold get. destruct (nnz Y) as [|[|n]]; [lia|lia|]. reflexivity.
Qed.

(** Finding: CSR(GrB_Matrix*, false) releases the matrix but leaves the caller's pointer as it was. *)
Theorem C65_dangling_refuted A h r : csrOfGrbDup A false h r -> r = Err AssertFail \/ exists (o : obj) h', r = Ok (o, None, h').
Proof.
  intros (tmp & h0 & A' & h' & p & i & x & iso & jum & nz & _ & _ & ->). destruct jum; [left|right]; cbn; eauto.
Qed.

(** get_grb_mat_ptr: works if a value has at least the 8 bytes of an index; *)
Theorem C65_import_partial o Y own fr : wf Y -> sorted_rows Y -> csr_obj own o Y -> own ##ₘ fr -> 8 <= szV \/ nnz Y = 0 ->
  exists o' o'' A', csrToGrbPtr szV o (own ∪ fr) = Ok (o', Some A', own ∪ fr) /\ gholds own A' Y /\ (true_sizes szV A' Y <-> szV = 8 \/ nnz Y = 0) /\
    makeEmpty o' (own ∪ fr) = Ok (o'', own ∪ fr).
Proof.
  intros W S [Er Ec En Ez Ea] D Hsz. unfold csrToGrbPtr. rewrite Er, Ec, En. set (A0 := mkG (rows Y) (cols Y) false PNull PNull PNull 0 0 0 false false).
  pose proof (gholds_emptied (V := V) A0) as G0. assert (De : own ##ₘ ∅ ∪ fr) by (rewrite map_empty_union; exact D).
  pose proof (pack_ok szV false A0 _ ∅ own (o_rp o) (o_ci o) (o_va o) _ _ _ (8 * (rows Y + 1)) (szV * nnz Y) (szV * nnz Y) false false (nnz Y) fr G0 Ea De (map_disjoint_empty_l _)) as P.
  rewrite map_empty_union in P. rewrite P; cbn [vecs g_rows A0]; [|apply wf_last, W|lia|destruct Hsz as [Hs|Hs]; nia|lia].
  cbn [bind]. eexists _, _, _. split; [reflexivity|]. split; [|split].
  - constructor; cbn; try assumption; try reflexivity; [apply sorted_distinct, S|auto|]. right. exists (values Y). split; [exact Ea|reflexivity].
  - unfold true_sizes. cbn. split; [intros (_ & E & _); destruct (nnz Y); [auto|left; nia]|intros [-> | ->]; lia].
  - unfold makeEmpty. cbn [o_nnz o_rows o_rp o_ci o_va freeIf notNull bind]. destruct (0 <? nnz Y), (0 <? rows Y); reflexivity.
Qed.
(** finding: it gives the size of the values as the size of the column ids, so with smaller values (float, int) nothing is
    imported and nobody notices. *)
Theorem C65_import_refuted o Y own fr : wf Y -> csr_obj own o Y -> own ##ₘ fr -> 0 < nnz Y -> szV < 8 ->
  exists o', csrToGrbPtr szV o (own ∪ fr) = Ok (o', None, own ∪ fr) /\ csr_obj own o' Y.
Proof.
  intros W O D Hn Hsz. pose proof O as [Er Ec En Ez Ea]. unfold csrToGrbPtr, grbPack. cbn [vecs g_rows]. rewrite Er, Ec, En, Nat.ltb_irrefl.
  destruct (stored_ptr _ _ _ _ _ _ _ fr Ea) as (b & ->). cbn [bind]. rewrite (get_Some _ _ _ (wf_last _ W)). cbn [bind].
  destruct (Nat.ltb_spec (szV * nnz Y) (8 * nnz Y)); [|nia]. cbn [orb bind]. eexists. split; [reflexivity|]. constructor; cbn; auto.
Qed.

(** get_grb_mat(GrB_Matrix *A): entry number k of row r is given to GraphBLAS with the row r and the column colids[k], for the
    value values[k]. *)
Theorem C65_build (X : csr V) : wf X -> (N.of_nat (rows X) <= 2 ^ 64)%N -> (N.of_nat (cols X) <= 2 ^ 64)%N ->
  exists rinds, csrBuildArgs X true = Ok (rinds, N.of_nat <$> colids X) /\ length rinds = nnz X /\
    forall r k b e, rowptr X !! r = Some b -> rowptr X !! (r + 1) = Some e -> b <= k < e -> rinds !! k = Some (N.of_nat r).
Proof.
  intros W Hr Hc. unfold csrBuildArgs. cbn zeta.
  assert (M0 : forall x, (N.of_nat x < 2 ^ 64)%N -> minus64 x 0 = N.of_nat x).
  { intros x Hx. unfold minus64. rewrite N.sub_0_r. rewrite <- (N.mul_1_l (2 ^ 64)) at 1. rewrite N.mod_add by discriminate. apply N.mod_small, Hx. }
  set (cs := N.of_nat <$> colids X). assert (Lc : length cs = nnz X) by (unfold cs; rewrite fmap_length; apply wf_colids, W).
  set (Inv := fun r (s : list N * list N * nat) => let '(rinds, cinds, i) := s in
     rowptr X !! r = Some i /\ length rinds = nnz X /\ cinds = take i cs ++ replicate (nnz X - i) 0%N /\
     forall q k b e, q < r -> rowptr X !! q = Some b -> rowptr X !! (q + 1) = Some e -> b <= k < e -> rinds !! k = Some (N.of_nat q)).
  match goal with |- context [for_ 0 (rows X) ?body ?s0] => destruct (for_inv Inv body 0 (rows X) s0) as ([[rinds cinds] i] & E & HI) end.
  - lia.
  - split; [apply wf_first, W|]. split; [apply replicate_length|]. split; [rewrite Nat.sub_0_r; reflexivity|]. lia.
  - intros r [[rinds cinds] i] Hri (Hi & Hl & Hcs & Hrs). destruct (row_bounds_wf X r W ltac:(lia)) as (b & e & Hb & He & Hbe & Hen & _).
    assert (i = b) by congruence. subst i. rewrite (get_Some _ _ _ Hb), bind_Ok, (get_Some _ _ _ He), bind_Ok.
    set (J := fun cidx (s : list N * list N * nat) => let '(rinds', cinds', i') := s in i' = cidx /\ length rinds' = nnz X /\
       cinds' = take cidx cs ++ replicate (nnz X - cidx) 0%N /\
       (forall k, k < b -> rinds' !! k = rinds !! k) /\ forall k, b <= k < cidx -> rinds' !! k = Some (N.of_nat r)).
    match goal with |- context [for_ b e ?body ?s0] => destruct (for_inv J body b e s0) as ([[ri' ci'] i'] & E & HJ) end.
    + exact Hbe.
    + split; [reflexivity|]. split; [exact Hl|]. split; [exact Hcs|]. split; [reflexivity|]. lia.
    + intros cidx [[ri ci] i] Hci (-> & Hl' & -> & Hk1 & Hk2).
      destruct (lookup_lt_is_Some_2 (colids X) cidx) as [c Hcc]; [rewrite (wf_colids _ W); lia|].
      rewrite set_Ok by lia. rewrite bind_Ok, (get_Some _ _ _ Hcc), bind_Ok.
      rewrite set_Ok by (rewrite app_length, take_length, replicate_length; lia). rewrite bind_Ok. eexists. split; [reflexivity|].
      split; [reflexivity|]. split; [rewrite insert_length; exact Hl'|]. split; [|split].
      * rewrite M0 by (pose proof (wf_range _ W _ _ Hcc); lia). rewrite insert_app_r_alt by (rewrite take_length; lia). rewrite take_length, Nat.min_l by lia. rewrite Nat.sub_diag.
        replace (nnz X - cidx) with (S (nnz X - (cidx + 1))) by lia. cbn. rewrite Nat.add_1_r.
        rewrite (take_S_r cs cidx (N.of_nat c)) by (unfold cs; rewrite list_lookup_fmap, Hcc; reflexivity). rewrite <- app_assoc. reflexivity.
      * intros k Hk. rewrite list_lookup_insert_ne by lia. apply Hk1, Hk.
      * intros k Hk. destruct (decide (k = cidx)) as [->|]; [rewrite list_lookup_insert by lia; rewrite M0 by lia; reflexivity|]. rewrite list_lookup_insert_ne by lia. apply Hk2. lia.
    + rewrite E. eexists. split; [reflexivity|]. destruct HJ as (-> & Hl' & Hc' & Hk1 & Hk2). split; [exact He|]. split; [exact Hl'|]. split; [exact Hc'|].
      intros q k b' e' Hq Hb' He' Hk. destruct (decide (q = r)) as [->|].
      * apply Hk2. assert (b' = b) by congruence. assert (e' = e) by congruence. lia.
      * assert (e' <= b) by (eapply (wf_mono_le X (q + 1) r); [exact W|exact He'|exact Hb|lia]). rewrite Hk1 by lia. apply (Hrs q k b' e'); try assumption. lia.
  - rewrite E. cbn [bind]. destruct HI as (Hi & Hl & -> & Hrs). rewrite (wf_last _ W) in Hi. injection Hi as <-. rewrite Nat.sub_diag, app_nil_r, take_ge by lia.
    exists rinds. split; [reflexivity|]. split; [exact Hl|]. intros r k b e Hb He. apply (Hrs r k b e); [|assumption|assumption].
    apply lookup_lt_Some in He. rewrite (wf_len _ W) in He. lia.
Qed.

(** Finding: of a one-based matrix with an entry it reads the column ids one place too late, the last time past the array. *)
Theorem C65_build_one_based_refuted (X : csr V) : wf X -> 0 < nnz X ->
  csrBuildArgs (mkCsr (rows X) (cols X) (nnz X) (S <$> rowptr X) (S <$> colids X) (values X)) false = Err OutOfBounds.
Proof.
  intros W Hn. unfold csrBuildArgs. cbn [rows nnz rowptr colids].
  set (Inv := fun r (s : list N * list N * nat) => let '(rinds, cinds, i) := s in rowptr X !! r = Some i /\ i < nnz X /\ length rinds = nnz X /\ length cinds = nnz X).
  assert (HL : exists r0, r0 < rows X /\ rowptr X !! (r0 + 1) = Some (nnz X)).
  { exists (rows X - 1). pose proof (wf_first _ W) as F. pose proof (wf_last _ W) as L. destruct (rows X) as [|n] eqn:En; [assert (nnz X = 0) by congruence; lia|]. split; [lia|]. replace (S n - 1 + 1) with (S n) by lia. exact L. }
  destruct HL as (r0 & Hr0 & Hl0). unfold for_ at 1. rewrite Nat.sub_0_r.
  rewrite (for_n_err Inv _ (rows X) 0 _ r0 OutOfBounds); [reflexivity| |lia|].
  - split; [apply wf_first, W|]. rewrite !replicate_length. auto.
  - intros r [[rinds cinds] i] Hr (Hi & Hin & L1 & L2). destruct (row_bounds_wf X r W ltac:(lia)) as (b & e & Hb & He & Hbe & Hen & _).
    assert (i = b) by congruence. subst i.
    rewrite (get_Some _ r (S b)) by (rewrite list_lookup_fmap, Hb; reflexivity). rewrite bind_Ok. rewrite (get_Some _ (r + 1) (S e)) by (rewrite list_lookup_fmap, He; reflexivity). rewrite bind_Ok.
    set (J := fun cidx (s : list N * list N * nat) => let '(ri, ci, i) := s in cidx = S i /\ length ri = nnz X /\ length ci = nnz X).
    assert (Step : forall cidx s, S b <= cidx < S e -> J cidx s -> cidx < nnz X ->
      exists s', (let '(rinds, cinds, i) := s in rinds <- set_ rinds i (minus64 r 1) ;; c <- get (S <$> colids X) cidx ;; cinds <- set_ cinds i (minus64 c 1) ;; Ok (rinds, cinds, i + 1)) = Ok s' /\ J (cidx + 1) s').
    { intros cidx [[ri ci] i] Hc (-> & K1 & K2) Hlt. destruct (lookup_lt_is_Some_2 (colids X) (S i)) as [c Hcc]; [rewrite (wf_colids _ W); lia|].
      rewrite set_Ok by lia. rewrite bind_Ok. rewrite (get_Some _ (S i) (S c)) by (rewrite list_lookup_fmap, Hcc; reflexivity). rewrite bind_Ok, set_Ok by lia. rewrite bind_Ok.
      eexists. split; [reflexivity|]. split; [lia|]. rewrite !insert_length. auto. }
    destruct (decide (e = nnz X)) as [->|Hne].
    + left. unfold for_. apply (for_n_err J _ _ _ _ (nnz X)); [split; auto|lia|].
      intros cidx s Hc HJ. destruct (decide (cidx = nnz X)) as [->|]; [left|right; split; [assumption|apply Step; [lia|exact HJ|lia]]].
      destruct s as [[ri ci] i]. destruct HJ as (E & K1 & K2). rewrite set_Ok by lia. rewrite bind_Ok. unfold get.
      rewrite list_lookup_fmap, (lookup_ge_None_2 (colids X)) by (rewrite (wf_colids _ W); lia). reflexivity.
    + right. split; [intros ->; congruence|].
      destruct (for_inv J (fun cidx '(rinds, cinds, i) => rinds <- set_ rinds i (minus64 r 1) ;; c <- get (S <$> colids X) cidx ;; cinds <- set_ cinds i (minus64 c 1) ;; Ok (rinds, cinds, i + 1)) (S b) (S e) (rinds, cinds, b)) as ([[ri ci] i] & E & HJ).
      * lia.
      * split; auto.
      * intros cidx s Hc HJ. apply (Step cidx s Hc HJ). lia.
      * rewrite E. eexists. split; [reflexivity|]. destruct HJ as (Ei & K1 & K2). assert (i = e) by lia. subst i. split; [exact He|]. split; [lia|]. auto.
Qed.

(** get_grb_mat says that the rows are in order without looking: rows out of order go to GraphBLAS as if they were. *)
Theorem C65_unsorted_pack_refuted o A Y Z own ownA fr : wf Y -> ~ sorted_rows Y -> csr_obj own o Y -> gholds ownA A Z -> own ##ₘ ownA ∪ fr -> ownA ##ₘ fr ->
  g_rows A = rows Y -> g_cols A = cols Y ->
  exists o' A', csrToGrb szV o A (own ∪ (ownA ∪ fr)) = Ok (o', A', own ∪ fr) /\
    stored own (g_p A') (g_i A') (g_x A') (rowptr Y) (colids Y) (values Y) /\ g_jum A' = false /\ ~ gholds own A' Y.
Proof.
  intros W S O G D1 D2 Hr Hc. destruct O as [Er Ec En Ez Ea]. unfold csrToGrb. rewrite Hr, Hc, Er, Ec, En, !Nat.eqb_refl. cbn [andb assert_ bind].
  rewrite (pack_ok szV false A Z ownA own (o_rp o) (o_ci o) (o_va o) _ _ _ _ _ _ false false (nnz Y) fr G Ea D1 D2); cbn [vecs]; try (rewrite Hr; apply wf_last, W); try lia.
  cbn [bind isNull andb assert_]. eexists _, _. split; [reflexivity|]. split; [exact Ea|]. split; [reflexivity|]. intros H. apply S, (gh_sorted _ _ _ H). reflexivity.
Qed.
End C65.


(** The complete graph of four vertices, as the k-truss program gives it to the multiplication as both factors and mask. *)
Definition exK4 : csr nat := mkCsr 4 4 12 [0;3;6;9;12] [1;2;3;0;2;3;0;1;3;0;1;2] (replicate 12 1).
Lemma exK4_wf : wf exK4. Proof. prove_wf. Qed.
(** Finding: the multiplication with hash tables returns rows in the order of the slots.  The k-truss and triangle programs run
    it (mode "hash") and hand the result to get_grb_mat: by the theorem above GraphBLAS is told that the rows are in order. *)
Theorem C65_unsorted_refuted : forall w, w = 32%N \/ w = 64%N ->
  exists C : csr nat, wf C /\ rows C = 4 /\ cols C = 4 /\ ~ sorted_rows C /\
    forall top nts asg1 asg2, schedule 4 asg1 -> schedule 4 asg2 ->
      mxmHashMaskWobin_ends 0 (fun _ _ => 1) Nat.add w 64 top nts asg1 asg2 exK4 exK4 exK4 C /\
      forall C', mxmHashMaskWobin_ends 0 (fun _ _ => 1) Nat.add w 64 top nts asg1 asg2 exK4 exK4 exK4 C' -> C' = C.
Proof.
  intros w Hw. set (C := assemble (fun i => mhRow (fun _ _ => 1) Nat.add w 64 exK4 exK4 exK4 (mlen exK4 i) i) (rows exK4) (cols exK4)).
  assert (EC : C = mkCsr 4 4 12 [0;3;6;9;12] [3;2;1; 0;3;2; 0;3;1; 0;2;1] (replicate 12 2)) by (destruct Hw as [-> | ->]; vm_compute; reflexivity).
  assert (Hco : compatible exK4 exK4 exK4) by (constructor; first [exact exK4_wf|reflexivity]).
  assert (Hm : forall i, i < rows exK4 -> 2 * (mlen exK4 i + 1) <= 64).
  { intros i Hi. cbn in Hi. do 4 (destruct i as [|i]; [apply (bool_decide_unpack _); vm_compute; exact I|]). lia. }
  exists C. split; [rewrite EC; prove_wf|]. split; [reflexivity|]. split; [reflexivity|]. split.
  - rewrite EC. intros S. specialize (S 0 ltac:(cbn; lia)). cbn in S. inversion S as [|? ? ? H]; subst. inversion H; subst. lia.
  - intros top nts asg1 asg2 H1 H2. destruct (wobin_ok 0 (fun _ _ => 1) Nat.add w 64 top nts asg1 asg2 exK4 exK4 exK4 Hco eq_refl ltac:(lia) Hm H1 H2) as (P & U & _). split; [exact P|exact U].
Qed.

(** Three arrays as blocks a, a+1, a+2 of a heap. *)
Definition blocks {V} (a : nat) (rp ci : list nat) (xs : list V) : gmap nat (ablock V) := {[a := BI rp]} ∪ ({[a + 1 := BI ci]} ∪ {[a + 2 := BV xs]}).
Lemma blocks_stored {V} a rp ci (xs : list V) : stored (blocks a rp ci xs) (PBlk a) (PBlk (a + 1)) (PBlk (a + 2)) rp ci xs.
Proof.
  exists {[a := BI rp]}, {[a + 1 := BI ci]}, {[a + 2 := BV xs]}. split; [reflexivity|].
  repeat split; try constructor; apply map_disjoint_singleton_l_2, lookup_singleton_ne; lia.
Qed.
Lemma blocks_disjoint {V} a b rp ci (xs : list V) rp' ci' (xs' : list V) : a + 3 <= b -> blocks a rp ci xs ##ₘ blocks b rp' ci' xs'.
Proof.
  intros H. unfold blocks. repeat (apply map_disjoint_union_l_2 || apply map_disjoint_union_r_2); apply map_disjoint_singleton_l_2, lookup_singleton_ne; lia.
Qed.
(** The matrix exA by rows in GraphBLAS, with a value for each entry; with one value 7 for all; out of order; and the
    transpose of exB (4 x 3, so exB by columns) in a CSC object. *)
Definition exG (jum : bool) : gmat := mkG 3 3 false (PBlk 0) (PBlk 1) (PBlk 2) 32 32 32 false jum.
Definition exGiso : gmat := mkG 3 3 false (PBlk 0) (PBlk 1) (PBlk 2) 32 32 8 true false.
Definition exA7 : csr Z := mkCsr 3 3 4 [0;2;2;4] [0;2;1;2] [7;7;7;7]%Z.
Definition exAj : csr Z := mkCsr 3 3 4 [0;2;2;4] [2;0;1;2] [3;2;5;-1]%Z.
Definition exOc : obj := mkObj 4 3 6 (PBlk 5) (PBlk 6) (PBlk 7) true.
Definition exBc : csc Z := mkCsc 4 3 6 [0;2;3;6] [0;3;1;0;1;3] [1;4;7;-2;6;1]%Z.
Definition exOw : obj := mkObj 2 3 2 (PBlk 5) (PBlk 6) (PBlk 7) true.
Definition exBw : csc Z := mkCsc 2 3 2 [0;1;1;2] [1;0] [8;9]%Z.
Notation own65 X := (blocks 0 (rowptr X) (colids X) (values X)).
Example C65_example :
  gholds (own65 exA) (exG false) exA /\ true_sizes 8 (exG false) exA /\
  csr_obj (own65 exA) (mkObj 3 3 4 (PBlk 0) (PBlk 1) (PBlk 2) true) exA /\
  gholds ∅ (emptied (exG false)) (mkCsr 3 3 0 [0;0;0;0] [] [] : csr Z) /\
  csrOfGrb (exG false) (own65 exA) (Ok (mkObj 3 3 4 (PBlk 0) (PBlk 1) (PBlk 2) true, emptied (exG false), own65 exA)) /\
  csrToGrb 8 (mkObj 3 3 4 (PBlk 0) (PBlk 1) (PBlk 2) true) (emptied (exG false)) (own65 exA) =
    Ok (mkObj 3 3 4 PNull PNull PNull true, exG false, own65 exA) /\
  gholds (blocks 0 [0;2;2;4] [0;2;1;2] [7%Z]) exGiso exA7 /\ 1 < nnz exA7 /\
  gholds (own65 exAj) (exG true) exAj /\ ~ sorted_rows exAj /\ csr_obj (own65 exAj) (mkObj 3 3 4 (PBlk 0) (PBlk 1) (PBlk 2) true) exAj /\
  wf_csc exBc /\ sorted_cols exBc /\ csc_obj (blocks 5 (colptr exBc) (rowids exBc) (c_values exBc)) exOc exBc /\ c_cols exBc < c_rows exBc /\
  csc_obj (blocks 5 (colptr exBw) (rowids exBw) (c_values exBw)) exOw exBw /\ c_rows exBw < c_cols exBw /\
  own65 exA ##ₘ blocks 5 (colptr exBc) (rowids exBc) (c_values exBc) /\
  csrBuildArgs exA true = Ok ([0; 0; 2; 2]%N, [0; 2; 1; 2]%N).
Proof.
  assert (G : gholds (own65 exA) (exG false) exA).
  { constructor; try reflexivity; [exact exA_wf|apply sorted_distinct, exA_sorted|intros _; exact exA_sorted|right; exists (values exA); split; [apply (blocks_stored 0)|reflexivity]]. }
  split; [exact G|]. split; [repeat split|]. split; [constructor; try reflexivity; apply (blocks_stored 0)|]. split; [exact (gholds_emptied (V := Z) (exG false))|].
  split.
  { exists (emptied (exG false)), (own65 exA), (PBlk 0), (PBlk 1), (PBlk 2), false, false, 4. split; [|reflexivity].
    exists (own65 exA), ∅, (own65 exA), exA, exA, (values exA). rewrite map_union_empty. split; [reflexivity|]. split; [apply map_disjoint_empty_r|]. split; [exact G|].
    split; [reflexivity|]. split; [apply map_disjoint_empty_r|]. split; [reflexivity|]. split; [apply (blocks_stored 0)|]. split; [reflexivity|]. split; [exact exA_wf|].
    split; [reflexivity|]. split; [reflexivity|]. split; [apply sorted_distinct, exA_sorted|]. split; [intros _; exact exA_sorted|]. split; [reflexivity|]. split; [reflexivity|].
    split; [intros a b v; reflexivity|]. split; [reflexivity|]. split; reflexivity. }
  split.
  { reflexivity. }
  split.
  { constructor; try reflexivity; [prove_wf|apply sorted_distinct; prove_sorted|intros _; prove_sorted|right; exists [7%Z]; split; [apply (blocks_stored 0)|exists 7%Z; split; reflexivity]]. }
  split.
  { cbn. lia. }
  split.
  { constructor; try reflexivity; [prove_wf|prove_distinct|intros; discriminate|right; exists (values exAj); split; [apply (blocks_stored 0)|reflexivity]]. }
  split.
  { intros S. specialize (S 0 ltac:(cbn; lia)). cbn in S. inversion S as [|? ? ? H]; subst. inversion H; subst. lia. }
  split.
  { constructor; try reflexivity; apply (blocks_stored 0). }
  split.
  { unfold wf_csc. exact exB_wf. }
  split.
  { exact exB_sorted. }
  split.
  { constructor; try reflexivity; apply (blocks_stored 5). }
  split.
  { cbn. lia. }
  split.
  { constructor; try reflexivity; apply (blocks_stored 5). }
  split.
  { cbn. lia. }
  split.
  { apply blocks_disjoint. lia. }
  reflexivity.
Qed.
Print Assumptions C65_csr_pack.
Print Assumptions C65_csr_roundtrip_partial.
Print Assumptions C65_csc_pack_partial.
Print Assumptions C65_csc_roundtrip_partial.
Print Assumptions C65_csc_wide_refuted.
Print Assumptions C65_csc_size_refuted.
Print Assumptions C65_iso_refuted.
Print Assumptions C65_jumbled_refuted.
Print Assumptions C65_dup_partial.
Print Assumptions C65_dup_iso_refuted.
Print Assumptions C65_dangling_refuted.
Print Assumptions C65_import_partial.
Print Assumptions C65_import_refuted.
Print Assumptions C65_build.
Print Assumptions C65_build_one_based_refuted.
Print Assumptions C65_unsorted_pack_refuted.
Print Assumptions C65_unsorted_refuted.
