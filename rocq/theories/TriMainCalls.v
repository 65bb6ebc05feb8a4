(** The products that TriCntAll.cpp runs, on the matrix of a file. *)
From Coq Require Import NArith ZArith Ascii String.
From stdpp Require Import numbers list_numbers sorting.
From Verif Require Import BaseProofs McaProofs HeapStatements HashModel DriverStatements InnerDriverModel InnerDriverStatements Assemble MatSpec ConvProofs MatStatements PropMat TransFill
  GraphSpec GraphModel GraphProofs GraphCalls TriProofs IndexModel PropIndex PropSpa PropNohash NohashProofs PropReport IoSpec IoModel PropIo AlgModel DriverModel ParModel
  SpaModel MaskHashModel NohashModel TriAllModel TriAllSpec TriAllProofs TriAllCalls TriAllCount PropTriAll RunSpec RunProofs PropRun MainModel MainSpec MainCalls TriMainModel TriMainSpec.
From Verif Require Import Base Spec.
Local Open Scope nat_scope.
Local Notation M64 := (2 ^ 64)%Z.

(** ** The graph of the file *)
Section Graph.
Context (X : csc Z) (E : list (nat * nat * Z)) (g : Z -> Z).
Context (HX : wf_csc X) (HE : triples_csc X ≡ₚ (fun e => (fst e, g (snd e))) <$> E).
Lemma entry_epos i j : i ∈ fst <$> col_entries X j <-> (i, j) ∈ epos <$> E.
Proof.
  rewrite !elem_of_list_fmap. split.
  - intros ([r v] & -> & Hin). apply triples_elem in Hin; [|exact HX]. rewrite HE in Hin. apply elem_of_list_fmap in Hin as (e & [= E1 _] & He). exists e. split; [exact E1|exact He].
  - intros (e & Ee & He). exists (i, g (snd e)). split; [reflexivity|]. apply triples_elem; [exact HX|]. rewrite HE. apply elem_of_list_fmap. exists e. split; [|exact He]. unfold epos in Ee. rewrite Ee. reflexivity.
Qed.
Lemma linked_joined i j : linked E i j <-> joined X i j.
Proof. unfold linked, joined. rewrite !entry_epos. reflexivity. Qed.
Lemma rowids_triples : rowids X = (fun e => fst (fst e)) <$> triples_csc X.
Proof.
  pose proof (wf_assemble (csc_tr X) HX) as Ea. assert (Ec : colids (csc_tr X) = colids (assemble (row_entries (csc_tr X)) (rows (csc_tr X)) (cols (csc_tr X)))) by (rewrite <- Ea; reflexivity).
  change (colids (csc_tr X)) with (rowids X) in Ec. rewrite Ec. cbn [assemble colids]. unfold rowsOf, triples_csc. rewrite Nat.sub_0_r, !ConvProofs.mjoin_fmap, <- !list_fmap_compose. f_equal.
  apply list_fmap_ext. intros ? j _. unfold compose. rewrite <- list_fmap_compose. reflexivity.
Qed.
Lemma degree_row i : degree E i = row_degree X i.
Proof.
  unfold degree, row_degree. rewrite rowids_triples. rewrite HE at 1. rewrite <- list_fmap_compose.
  clear. induction E as [|e l IH]; [reflexivity|]. rewrite fmap_cons, !filter_cons. unfold compose at 1. cbn [fst]. unfold epos at 1.
  destruct (decide (fst (fst e) = i)); cbn [length]; rewrite ?IH; reflexivity.
Qed.
End Graph.

Lemma permutes_perm n p : permutes n p -> p <$> seq 0 n ≡ₚ seq 0 n.
Proof.
  intros [H1 H2]. apply submseteq_Permutation_length_eq; [rewrite fmap_length; lia|]. apply NoDup_submseteq.
  - apply NoDup_fmap_2_strong; [|apply NoDup_seq]. intros x y Hx Hy. apply elem_of_seq in Hx, Hy. apply H2; lia.
  - intros x Hx. apply elem_of_list_fmap in Hx as (y & -> & Hy). apply elem_of_seq in Hy. apply elem_of_seq. specialize (H1 y). lia.
Qed.
Lemma rank_unique (d : nat -> nat) n p q :
  permutes n p -> (forall i j, i < j < n -> d (p j) < d (p i) \/ (d (p j) = d (p i) /\ p j < p i)) ->
  permutes n q -> (forall i j, i < j < n -> d (q j) < d (q i) \/ (d (q j) = d (q i) /\ q j < q i)) -> forall i, i < n -> p i = q i.
Proof.
  intros Pp Rp Pq Rq i Hi. set (R := fun x y => d y < d x \/ (d y = d x /\ y <= x)).
  assert (HS : forall p, (forall i j, i < j < n -> d (p j) < d (p i) \/ (d (p j) = d (p i) /\ p j < p i)) -> forall k m, k + m <= n -> StronglySorted R (p <$> seq k m)).
  { clear. intros p Rp k m. revert k. induction m as [|m IH]; intros k Hk; [constructor|]. cbn [seq]. rewrite fmap_cons. constructor; [apply IH; lia|].
    apply Forall_forall. intros x Hx. apply elem_of_list_fmap in Hx as (j & -> & Hj). apply elem_of_seq in Hj. unfold R. specialize (Rp k j). lia. }
  assert (EQ : p <$> seq 0 n = q <$> seq 0 n).
  { assert (HA : AntiSymm (=) R) by (intros x y; unfold R; lia).
    apply (StronglySorted_unique R); [apply HS; auto|apply HS; auto|rewrite (permutes_perm n p), (permutes_perm n q) by assumption; reflexivity]. }
  assert (E1 : (p <$> seq 0 n) !! i = Some (p i)) by (rewrite list_lookup_fmap, lookup_seq_lt by exact Hi; reflexivity).
  rewrite EQ, list_lookup_fmap, lookup_seq_lt in E1 by exact Hi. cbn in E1. congruence.
Qed.

(** ** Results *)
Lemma spec_cols (T : csr Z) i j : j ∈ fst <$> spec_row mul64 add64 T T T i <-> j ∈ row_cols T i /\ exists k, k ∈ row_cols T i /\ j ∈ row_cols T k.
Proof.
  rewrite spec_row_keys, elem_of_list_filter. unfold touched_cols. rewrite elem_of_list_join. split.
  - intros [(l & Hj & Hl) Hm]. split; [exact Hm|]. apply elem_of_list_fmap in Hl as (ka & -> & Hka). exists (fst ka). split; [apply elem_of_list_fmap; eauto|exact Hj].
  - intros [Hm (k & Hk & Hj)]. split; [|exact Hm]. apply elem_of_list_fmap in Hk as (ka & -> & Hka). eexists. split; [exact Hj|]. apply elem_of_list_fmap. eauto.
Qed.
Lemma places_ok' {V} (C : csr V) : wf C -> distinct_rows C -> NoDup (places C) /\ length (places C) = nnz C /\ forall i j, (i, j) ∈ places C <-> edge C i j.
Proof.
  intros Hw Hs. split; [|split].
  - apply NoDup_mjoin; [apply NoDup_seq| |].
    + intros i Hi. apply elem_of_seq in Hi. apply NoDup_fmap_2; [intros x y [= ->]; reflexivity|]. apply Hs. lia.
    + intros x y z _ _ Hx Hy. apply elem_of_list_fmap in Hx as (? & -> & _). apply elem_of_list_fmap in Hy as (? & [= ->] & _). reflexivity.
  - rewrite <- (wf_values C Hw). pose proof (wf_assemble C Hw) as E. rewrite E at 2. unfold assemble. cbn [values]. unfold rowsOf, places. rewrite Nat.sub_0_r, fmap_length.
    induction (seq 0 (rows C)) as [|i l IH]; [reflexivity|]. rewrite !fmap_cons, !mjoin_cons, !app_length, IH. unfold row_cols. rewrite !fmap_length. reflexivity.
  - intros i j. unfold places, edge. rewrite elem_of_list_join. split.
    + intros (l & Hin & Hl). apply elem_of_list_fmap in Hl as (i' & -> & Hi). apply elem_of_seq in Hi. apply elem_of_list_fmap in Hin as (j' & [= -> ->] & Hin). split; [lia|exact Hin].
    + intros [Hi Hin]. eexists. split; [|apply elem_of_list_fmap; exists i; split; [reflexivity|apply elem_of_seq; lia]]. apply elem_of_list_fmap. eauto.
Qed.

Section Count.
Context (X : csc Z) (n : nat) (p : nat -> nat) (T : csr Z) (E : list (nat * nat * Z)).
Context (HX : wf_csc X) (Hr : c_rows X = n) (Hc : c_cols X = n) (Hp : permutes n p) (HG : GraphSpec.good n T).
Context (HE : forall i j, edge T i j <-> j < i /\ exists a b, joined X a b /\ i = p a /\ j = p b).
Context (HL : forall i j, linked E i j <-> joined X i j).
Context (es : list (nat * nat)) (Hes : closing_edges E p es).

Lemma closing_count (C : csr Z) : wf C -> distinct_rows C -> rows C = n ->
  (forall i j, i < n -> j ∈ row_cols C i <-> j ∈ row_cols T i /\ exists k, k ∈ row_cols T i /\ j ∈ row_cols T k) -> nnz C = length es.
Proof.
  intros HwC Hd HrC Hcols. destruct (places_ok' C HwC Hd) as (N1 & N2 & N3). destruct Hes as [Hnd Hes']. pose proof HG as (_ & _ & HrT & _).
  rewrite <- N2. assert (E2 : (fun ac => (p (fst ac), p (snd ac))) <$> es ≡ₚ places C); [|rewrite <- E2, fmap_length; reflexivity].
  assert (Hres : forall a c, (a, c) ∈ es -> a < n /\ c < n) by (intros a c Hac; apply Hes' in Hac as [J _]; apply HL in J; apply (joined_range X n a c HX Hr Hc J)).
  apply NoDup_Permutation; [|exact N1|].
  - apply NoDup_fmap_2_strong; [|exact Hnd]. intros [a c] [a' c'] Ha Ha' [= E2 E3]. apply Hres in Ha, Ha'. destruct Hp as [_ Hp2].
    rewrite (Hp2 a a'), (Hp2 c c') by tauto. reflexivity.
  - intros [i j]. rewrite N3. unfold edge. rewrite HrC. rewrite elem_of_list_fmap. split.
    + intros ([a c] & [= -> ->] & Hac). destruct (Hres a c Hac) as [Ra Rc]. apply Hes' in Hac as (J & b & J1 & J2 & Hlt). rewrite HL in J, J1, J2. cbn [fst snd].
      assert (K1 : edge T (p a) (p c)) by (apply HE; split; [lia|eauto]). assert (K2 : edge T (p a) (p b)) by (apply HE; split; [lia|eauto]).
      assert (K3 : edge T (p b) (p c)) by (apply HE; split; [lia|eauto]). assert (Hi : p a < n) by (apply Hp, Ra). split; [exact Hi|].
      apply Hcols; [exact Hi|]. split; [apply K1|]. exists (p b). split; [apply K2|apply K3].
    + intros [Hi Hin]. apply Hcols in Hin as (K1 & k & K2 & K3); [|exact Hi].
      assert (E1' : edge T i j) by (split; [lia|exact K1]). assert (E2' : edge T i k) by (split; [lia|exact K2]).
      assert (E3' : edge T k j) by (split; [apply HE in E2' as (_ & a & b & J & _ & ->); rewrite HrT; apply Hp; apply (joined_range X n a b HX Hr Hc J)|exact K3]).
      apply HE in E1' as (L1 & a & c & J1 & -> & ->). apply HE in E2' as (L2 & a2 & b & J2 & Ea & ->). apply HE in E3' as (L3 & b3 & c3 & J3 & Eb & Ec).
      destruct (joined_range X n _ _ HX Hr Hc J1), (joined_range X n _ _ HX Hr Hc J2), (joined_range X n _ _ HX Hr Hc J3). destruct Hp as [_ Hp2].
      apply Hp2 in Ea; [|assumption..]. apply Hp2 in Eb; [|assumption..]. apply Hp2 in Ec; [|assumption..]. subst a2 b3 c3.
      exists (a, c). split; [reflexivity|]. apply Hes'. rewrite !HL. split; [exact J1|]. exists b. rewrite !HL. auto.
Qed.
Lemma product_count C : isProduct64 T C -> nnz C = length es.
Proof.
  intros (HwC & HrC & HcC & Hrow). pose proof HG as (HwT & HsT & HrT & HcT).
  assert (Hk : forall i, i < n -> row_cols C i ≡ₚ fst <$> spec_row mul64 add64 T T T i) by (intros i Hi; apply fmap_Permutation, Hrow; lia).
  apply closing_count; [exact HwC| |congruence|].
  - intros i Hi. rewrite Hk by lia. apply masked_row_keys_NoDup, SSorted_NoDup, HsT. lia.
  - intros i j Hi. rewrite Hk by exact Hi. apply spec_cols.
Qed.
Lemma closing_triangles ts : file_triangles E ts -> es = [] <-> ts = [].
Proof.
  intros [_ Hts]. destruct Hes as [_ Hes']. assert (Hsym : forall i j, linked E i j -> linked E j i) by (intros i j [K1 K2]; split; [congruence|tauto]). split; intros ->.
  - destruct ts as [|[[a b] c] ts']; [reflexivity|]. exfalso. assert (Hin : (a, b, c) ∈ (a, b, c) :: ts') by left. apply Hts in Hin as (L1 & L2 & J1 & J2 & J3).
    assert (Hno : forall x y z, linked E x y -> linked E y z -> linked E x z -> ~ (p z < p y < p x)).
    { intros x y z K1 K2 K3 Hlt. assert (Hb : (x, z) ∈ @nil (nat * nat)) by (apply Hes'; split; [exact K3|eauto]). inversion Hb. }
    assert (Hne : forall x y, linked E x y -> p x <> p y).
    { intros x y J Ep. apply HL in J. destruct (joined_range X n x y HX Hr Hc J). apply (proj1 J). apply Hp; assumption. }
    pose proof (Hne _ _ J1). pose proof (Hne _ _ J2). pose proof (Hne _ _ J3).
    pose proof (Hno a b c). pose proof (Hno a c b). pose proof (Hno b a c). pose proof (Hno b c a). pose proof (Hno c a b). pose proof (Hno c b a).
    pose proof (Hsym _ _ J1). pose proof (Hsym _ _ J2). pose proof (Hsym _ _ J3).
    assert ((p c < p b < p a) \/ (p b < p c < p a) \/ (p c < p a < p b) \/ (p a < p c < p b) \/ (p b < p a < p c) \/ (p a < p b < p c)) as Hcase by lia. tauto.
  - destruct es as [|[a c] es']; [reflexivity|]. exfalso. assert (Hin : (a, c) ∈ (a, c) :: es') by left. apply Hes' in Hin as (J & b & J1 & J2 & _).
    assert (Hno : forall x y z, x < y -> y < z -> linked E x y -> linked E y z -> linked E x z -> False).
    { intros x y z K1 K2 K3 K4 K5. assert (Hb : (x, y, z) ∈ @nil (nat * nat * nat)) by (apply Hts; auto). inversion Hb. }
    pose proof (proj1 J). pose proof (proj1 J1). pose proof (proj1 J2). pose proof (Hsym _ _ J). pose proof (Hsym _ _ J1). pose proof (Hsym _ _ J2).
    pose proof (Hno a b c). pose proof (Hno a c b). pose proof (Hno b a c). pose proof (Hno b c a). pose proof (Hno c a b). pose proof (Hno c b a).
    assert ((c < b /\ b < a) \/ (b < c /\ c < a) \/ (c < a /\ a < b) \/ (a < c /\ c < b) \/ (b < a /\ a < c) \/ (a < b /\ b < c)) as Hcase by lia. tauto.
Qed.
End Count.

(** ** The calls *)
Section Calls.
Context (T : csr Z) (L : csc Z) (n itmax tnum : nat).
Context (HG : GraphSpec.good n T) (HL : wf_csc L) (Hsm : same_matrix T L) (Hsc : sorted_cols L) (H1 : 1 <= n) (Ht : 1 <= tnum).
Context (Hn : (N.of_nat n < 2 ^ 31)%N) (Hit : (2 ^ 63 - 1 <= Z.of_nat itmax)%Z) (Htn : (Z.of_nat tnum <= intmax)%Z).

Definition plainP (prod : nat -> nat -> csr Z -> Prop) : Prop := (forall nz, exists R, prod tnum nz R) /\ forall nz R, prod tnum nz R -> isProduct64 T R.
Lemma plain1 alg : triCall n (fun T _ C => yields1p alg T T T C) -> plainP (product1p alg T).
Proof.
  intros Hc. destruct (call_ok n _ Hc H1 T L HG HL Hsm Hsc) as [[C Y] HQ]. split; [intros nz; exists C; apply (p1 _ _ C); auto|]. intros nz R HR. apply (p1 _ _ C) in HR as ->; auto.
Qed.
Lemma plain2 alg : triCall n (fun T _ C => yields2p alg T T T C) -> plainP (product2p alg T).
Proof.
  intros Hc. destruct (call_ok n _ Hc H1 T L HG HL Hsm Hsc) as [[C Y] HQ]. split; [intros nz; exists C; apply (p2 _ _ C); auto|]. intros nz R HR. apply (p2 _ _ C) in HR as ->; auto.
Qed.
Lemma plainI1 : plainP (productI1p T L).
Proof.
  destruct (call_ok n _ (tc_inner1 n) H1 T L HG HL Hsm Hsc) as [[C Y] HQ]. split.
  - intros nz. exists C. intros iA iB iC s _ _ HA HB. apply Y; assumption.
  - intros nz R HR. assert (R = C) as ->; [|apply HQ, Y]. apply (insert_inj (st3c T L) 2). apply (inner1p_unique mul64 add64 0 1 0 2 tnum (st3c T L)); [apply HR|apply Y]; auto.
Qed.
Lemma plainI2 : plainP (productI2p T L).
Proof.
  destruct (call_ok n _ (tc_inner2 n) H1 T L HG HL Hsm Hsc) as [[C Y] HQ]. split.
  - intros nz. exists C. intros iA iB iC s N1 N2 HA HB. apply Y; assumption.
  - intros nz R HR. assert (R = C) as ->; [|apply HQ, Y]. apply (insert_inj (st3c T L) 2). apply (inner2p_unique mul64 add64 0 1 0 2 tnum (st3c T L)); [apply HR|apply Y]; auto.
Qed.
Lemma plain_msa1 two sz : (0 < sz <= 16)%N -> plainP (product1p (msaAlg mul64 add64 two sz) T).
Proof. intros Hz. apply plain1, tc_msa1; nia. Qed.
Lemma plain_msa2 two sz : (0 < sz <= 16)%N -> plainP (product2p (msaAlg mul64 add64 two sz) T).
Proof. intros Hz. apply plain2, tc_msa2; nia. Qed.
Lemma plain_mca1 : plainP (product1p (mcaAlg mul64 add64 16) T).
Proof. apply plain1, tc_mca1; lia. Qed.
Lemma plain_mca2 : plainP (product2p (mcaAlg mul64 add64 16) T).
Proof. apply plain2, tc_mca2; lia. Qed.
Lemma fits_n : HashModel.fits 64 n.
Proof. unfold HashModel.fits. change (2 ^ (64 - 1))%N with 9223372036854775808%N. lia. Qed.
Lemma plain_hash1 : plainP (product1p (hashAlg mul64 add64 64 8 24) T).
Proof. apply plain1, tc_hash1; [lia|lia|apply fits_n|change (N.max 8 24) with 24%N; lia|reflexivity]. Qed.
Lemma plain_hash2 : plainP (product2p (hashAlg mul64 add64 64 8 24) T).
Proof. apply plain2, tc_hash2; [lia|lia|apply fits_n|change (N.max 8 24) with 24%N; lia|reflexivity]. Qed.
Lemma plain_heap1 insp : (insp <= 512 \/ insp = 2 ^ 64 - 1)%N -> plainP (product1p (heapAlg mul64 add64 itmax insp 24) T).
Proof. intros Hi. apply plain1, tc_heap1; [lia|lia| |lia]. destruct Hi as [Hi|Hi]; [|auto]. right. right. rewrite Nat2N.inj_mul. nia. Qed.
Lemma plain_heap2 insp : (insp <= 512 \/ insp = 2 ^ 64 - 1)%N -> plainP (product2p (heapAlg mul64 add64 itmax insp 24) T).
Proof. intros Hi. apply plain2, tc_heap2; [lia|lia| |lia]. destruct Hi as [Hi|Hi]; [|auto]. right. right. rewrite Nat2N.inj_mul. nia. Qed.

Context (Hsmall : (N.of_nat (n + 1) < 2 ^ 17)%N).
Lemma size_W : n * n * n + tnum <= itmax + 1 /\ n + tnum <= itmax + 1 /\ 2 * (n + 1) <= itmax + 1 /\ 16 < itmax + 1.
Proof.
  unfold intmax in Htn. assert (Z.of_nat n < 131072)%Z by lia. assert (Z.of_nat (n * n * n) <= 131072 * 131072 * 131072)%Z by nia. lia.
Qed.
Lemma any_plain {P : Type} (ok : P -> Prop) (ends : nat -> P -> csr Z -> Prop) : (exists p, ok p) ->
  (forall p, ok p -> (exists C, ends tnum p C) /\ forall C, ends tnum p C -> isProduct64 T C) -> plainP (fun t nz => anyOf ok (ends t)).
Proof.
  intros [p0 Hp0] H. split.
  - intros nz. destruct (H p0 Hp0) as [[C HC] _]. exists C. split; [intros p Hp; apply H, Hp|]. eauto.
  - intros nz R [_ (p & Hp & HR)]. eapply H; eauto.
Qed.
Lemma plain_spa : plainP (productSpa itmax T).
Proof.
  destruct size_W as (W1 & W2 & W3 & W4).
  apply (any_plain (fun _ : nat => True) (fun t nts => spaSpGEMM_ends 0%Z mul64 add64 (itmax + 1) (2 * itmax + 1) nts t T T T)); [exists 1; exact I|].
  intros nts _. apply (call_ok n _ (tc_spa n (itmax + 1) (2 * itmax + 1) nts tnum Ht Hsmall ltac:(lia) W1 ltac:(lia)) H1 T L HG HL Hsm Hsc).
Qed.
Lemma plain_hashMask : plainP (productHashMask itmax T).
Proof.
  destruct size_W as (W1 & W2 & W3 & W4).
  apply (any_plain (fun _ : nat => True) (fun t nts => mxmHashMask_ends 0%Z mul64 add64 64 (itmax + 1) (2 * itmax + 1) nts t T T T)); [exists 1; exact I|].
  intros nts _. apply (call_ok n _ (tc_hashMask n 64 (itmax + 1) (2 * itmax + 1) nts tnum Ht Hsmall W4 W1 W3) H1 T L HG HL Hsm Hsc).
Qed.
Lemma plain_wobin : plainP (productWobin itmax T).
Proof.
  destruct size_W as (W1 & W2 & W3 & W4). pose proof HG as (_ & _ & Hr & _).
  apply (any_plain (fun p : nat * list (list nat) * list (list nat) => schedule (rows T) (snd (fst p)) /\ schedule (rows T) (snd p))
    (fun t p => mxmHashMaskWobin_ends 0%Z mul64 add64 64 (itmax + 1) (2 * itmax + 1) (fst (fst p)) (snd (fst p)) (snd p) T T T)); [|].
  - exists (1, [seq 0 (rows T)], [seq 0 (rows T)]). cbn. unfold schedule. cbn. rewrite app_nil_r. auto.
  - intros [[nts a1] a2] [Ha1 Ha2]. cbn in *. rewrite Hr in Ha1, Ha2.
    apply (call_ok n _ (tc_wobin n 64 (itmax + 1) (2 * itmax + 1) nts a1 a2 Ha1 Ha2 Hsmall W4 W3) H1 T L HG HL Hsm Hsc).
Qed.
Lemma nohash_call : (forall nz, exists R, productNohash itmax T L tnum nz R) /\ (forall R, productNohash itmax T L tnum 0 R -> isProduct64 T R) /\
  exists C, productNohash itmax T L tnum 0 C /\
    forall nz R, productNohash itmax T L tnum nz R -> RunSpec.shape R /\ rows R = n /\ nnz R = nz + nnz C.
Proof.
  destruct size_W as (W1 & W2 & W3 & W4). pose proof HG as (Hw & Hs & Hr & Hc). pose proof (good_compat n T HG) as HC.
  assert (Hd : distinct_rows T) by (intros i Hi; apply SSorted_NoDup, Hs, Hi).
  assert (Hok : forall nts nz, innerSpGEMM_nohash_ends 0%Z 0%Z mul64 add64 (itmax + 1) (2 * itmax + 1) nts tnum 8 T L T nz (nhOut 0%Z 0%Z mul64 add64 T T T nz) /\
    forall C, innerSpGEMM_nohash_ends 0%Z 0%Z mul64 add64 (itmax + 1) (2 * itmax + 1) nts tnum 8 T L T nz C -> C = nhOut 0%Z 0%Z mul64 add64 T T T nz).
  { intros nts nz. apply nohash_ok; try assumption; try lia.
    - intros q k Hq. apply (wf_range _ Hw) in Hq. exact Hq.
    - rewrite Hr. enough (sum_list (bin_work T L <$> seq 0 n) <= n * n * n) by lia. etransitivity; [apply (sum_bound _ (n * n))|rewrite seq_length; lia].
      intros i Hi. apply elem_of_seq in Hi. apply (work_bound n T L); auto. lia. }
  assert (Hex : forall nz, productNohash itmax T L tnum nz (nhOut 0%Z 0%Z mul64 add64 T T T nz)).
  { intros nz. split; [intros nts _; eexists; apply Hok|]. exists 1. split; [exact I|apply Hok]. }
  assert (Hun : forall nz R, productNohash itmax T L tnum nz R -> R = nhOut 0%Z 0%Z mul64 add64 T T T nz) by (intros nz R [_ (nts & _ & HR)]; eapply Hok; exact HR).
  assert (HQ : forall R, productNohash itmax T L tnum 0 R -> isProduct64 T R).
  { intros R [_ (nts & _ & HR)]. eapply (call_ok n _ (tc_nohash n (itmax + 1) (2 * itmax + 1) nts tnum 8 Ht Hsmall W2 ltac:(lia) W1 ltac:(lia)) H1 T L HG HL Hsm Hsc), HR. }
  split; [eauto|]. split; [exact HQ|]. eexists. split; [apply Hex|]. intros nz R HR. apply Hun in HR as ->.
  pose proof (HQ _ (Hex 0)) as (Hwf & _). pose proof (wf_len _ Hwf) as K1. pose proof (wf_colids _ Hwf) as K2. pose proof (wf_values _ Hwf) as K3.
  unfold nhOut in *. cbn [rows cols nnz rowptr colids values replicate] in *. rewrite !app_nil_r in *. split; [|split; [exact Hr|lia]].
  split; [exact K1|]. cbn [rows cols nnz rowptr colids values]. rewrite !app_length, !replicate_length. lia.
Qed.
Lemma isect_call stdsortK : sort_contract (fun _ _ => False) stdsortK ->
  (forall nz, exists R, productIsect stdsortK itmax T tnum nz R) /\ forall nz C, productIsect stdsortK itmax T tnum nz C ->
    wf C /\ rows C = n /\ cols C = n /\ sorted_rows C /\ forall i j v, i < n -> ((j, v) ∈ row_entries C i <-> (j, v) ∈ row_entries T i /\ exists k, k ∈ row_cols T i /\ j ∈ row_cols T k).
Proof.
  intros Hss. destruct size_W as (W1 & W2 & W3 & W4). pose proof HG as (Hw & Hs & Hr & Hc).
  assert (Hok : forall nts, exists C, hashIntersect_ends 0%Z stdsortK mul64 add64 64 (itmax + 1) (2 * itmax + 1) nts tnum T T T C /\
    (forall C', hashIntersect_ends 0%Z stdsortK mul64 add64 64 (itmax + 1) (2 * itmax + 1) nts tnum T T T C' -> C' = C) /\
    wf C /\ rows C = rows T /\ cols C = cols T /\ sorted_rows C /\
    forall i j v, i < rows T -> ((j, v) ∈ row_entries C i <-> (j, v) ∈ row_entries T i /\ exists k, k ∈ row_cols T i /\ j ∈ row_cols T k)).
  { intros nts. apply C54_hash_intersect_partial; try assumption; try congruence; try lia.
    - rewrite Hr. pose proof (touched_sum n T HG). lia. }
  split.
  - intros nz. destruct (Hok 1) as (C & HC & _). exists C. split; [intros nts _; destruct (Hok nts) as (C' & HC' & _); eauto|]. exists 1. split; [exact I|exact HC].
  - intros nz C [_ (nts & _ & HC)]. destruct (Hok nts) as (C' & _ & U & P1 & P2 & P3 & P4 & P5). rewrite (U _ HC). rewrite Hr in *. rewrite Hc in *. auto 10.
Qed.
End Calls.
