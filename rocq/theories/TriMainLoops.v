(** The loop over the products of TriCntAll.cpp. *)
From Coq Require Import NArith ZArith Ascii String.
From stdpp Require Import numbers list_numbers sorting.
From Verif Require Import BaseProofs Assemble McaProofs MatSpec MatStatements GraphSpec GraphModel TriProofs IndexModel PropIndex ReportModel IoSpec IoModel AlgModel DriverModel
  TriAllModel TriAllSpec TriAllProofs TriAllCalls TriAllCount PropTriAll RunSpec RunProofs PropRun MainModel MainSpec MainCalls TriMainModel TriMainSpec TriMainCalls.
From Verif Require Import Base Spec.
Local Open Scope nat_scope.
Local Notation M64 := (2 ^ 64)%Z.

(** ** Any list of products *)
Section Loops.
Context (pick : gmap nat (ablock Z) -> nat) (null0 : bool) (Hp : forall h, h !! pick h = None).
Context (s : settings) (tnum : nat).
Context (Hone : 0 < innerIters s \/ warmupIters s = 1) (Hw : (N.of_nat (warmupIters s) <= 2147483647)%N) (Hi : (N.of_nat (innerIters s) <= 2147483647)%N).
Context (some : Prop) (cnt : nat) (sumOf : text -> Z).
Local Notation heap := (gmap nat (ablock Z)).

Definition lineT (lab : text) (l : line Z) : Prop := l_threads l = tnum /\ l_nnz l = cnt /\ l_sum l = sumOf lab.
Definition endsT (labs : list text) (h : heap) (r : res (heap * list (text * line Z))) : Prop :=
  exists h' out, r = Ok (h', out) /\ h ⊆ h' /\ (some -> warmupIters s <= 1 -> h' = h) /\ fst <$> out = labs /\ Forall (fun p => lineT (fst p) (snd p)) out.
(** What is needed of a product and its label. *)
Definition benchT (lab : text) (b : bench) : Prop :=
  processAlgorithmName (b_name b) = Ok lab /\
  match b_kind b with KHeap => False | KNohash mr mn => mr <> 0 /\ mn <> 0 | _ => True end /\
  (forall nz, exists R, b_prod b tnum nz R) /\
  (forall nz R, b_prod b tnum nz R -> handed (b_kind b) R /\ rows R <> 0 /\ (some -> nnz R <> 0)) /\
  forall R, b_prod b tnum 0 R -> nnz R = cnt /\ forall x, sumall_result 0%Z (stepInt 64) (plusInt 64) (values R) (nnz R) x -> x = sumOf lab.

Lemma bench1_T lab b h : benchT lab b ->
  (exists r, bench1 pick null0 s tnum b h r) /\ forall r, bench1 pick null0 s tnum b h r -> endsT [lab] h r.
Proof.
  intros (Hnm & Hk & Hex0 & Hres & Hzero).
  assert (Hwn : 0 < warmupIters s + innerIters s) by lia.
  assert (Hex : forall t nz, t ∈ [tnum] -> exists R, b_prod b t nz R) by (intros t nz Hin; apply elem_of_list_singleton in Hin as ->; apply Hex0).
  assert (Hsh : forall t nz R, t ∈ [tnum] -> b_prod b t nz R -> handed (b_kind b) R) by (intros t nz R Hin HR; apply elem_of_list_singleton in Hin as ->; eapply Hres, HR).
  assert (HI8 : forall a, length (bytesI a) = 8) by reflexivity. assert (HV8 : forall a, length (bytesV a) = 8) by reflexivity.
  destruct (C71_report Z Z 0%Z pick null0 0%Z (stepInt 64) (plusInt 64) bytesI bytesV 8 8 Hp HI8 HV8 (b_kind b) (b_prod b) _ _ [tnum] h Hwn Hw Hi Hex Hsh) as [[r0 Hr0] Hall].
  split; [eexists; exists r0; split; [exact Hr0|reflexivity]|].
  intros r (r1 & Hr1 & ->). destruct (Hall r1 Hr1) as (h' & ls & -> & Hsub & Hls). inversion Hls as [|? l ? ls' Hl Hnil]; subst. inversion Hnil; subst.
  cbn [bind]. rewrite Hnm. cbn [bind]. exists h', [(lab, l)]. split; [reflexivity|]. split; [exact Hsub|]. split; [|split; [reflexivity|]].
  - intros Hsome Hw1. eapply (C71_release_partial Z Z 0%Z pick null0 0%Z (stepInt 64) (plusInt 64) bytesI bytesV 8 8 Hp HI8 HV8 (b_kind b) (b_prod b) _ _ [tnum] h Hwn Hw Hi Hex); [| |exact Hr1].
    + intros t nz R Hin HR. apply elem_of_list_singleton in Hin as ->. destruct (Hres nz R HR) as (K1 & K2 & K3). auto.
    + destruct (b_kind b); auto.
  - constructor; [|constructor]. cbn [fst snd]. destruct Hl as (Htn & nz & R & HR & Hz & Hnz & Hs & _). rewrite (Hz Hone) in HR.
    destruct (Hzero R HR) as [Z1 Z2]. split; [exact Htn|]. split; [congruence|]. apply Z2, Hs.
Qed.
Lemma ends_app_T labs labs' h h1 out r : h ⊆ h1 -> (some -> warmupIters s <= 1 -> h1 = h) -> fst <$> out = labs -> Forall (fun p => lineT (fst p) (snd p)) out ->
  endsT labs' h1 r -> endsT (labs ++ labs') h (' (h, ls') <- r ;; Ok (h, out ++ ls')).
Proof.
  intros K1 K2 K3 K4 (h' & out' & -> & L1 & L2 & L3 & L4). cbn [bind]. exists h', (out ++ out'). split; [reflexivity|]. split; [etransitivity; eassumption|].
  split; [intros Hne Hw1; rewrite L2 by assumption; auto|]. split; [rewrite fmap_app; congruence|]. apply Forall_app. auto.
Qed.
Definition inMode (lab : text) (b : bench) : Prop := modeOf s ∈ b_modes b -> benchT lab b.
Lemma pass_T labs bs : Forall2 inMode labs bs -> forall h,
  (exists r, pass pick null0 s tnum bs h r) /\ forall r, pass pick null0 s tnum bs h r -> endsT (fst <$> filter (fun p => modeOf s ∈ b_modes (snd p)) (zip labs bs)) h r.
Proof.
  induction 1 as [|lab b labs bs Hb Hbs IH]; intros h.
  - split; [eexists; reflexivity|]. intros r ->. exists h, []. split; [reflexivity|]. split; [reflexivity|]. split; [reflexivity|]. split; [reflexivity|constructor].
  - cbn [pass]. change (zip (lab :: labs) (b :: bs)) with ((lab, b) :: zip labs bs). rewrite filter_cons. cbn [snd]. destruct (decide (modeOf s ∈ b_modes b)) as [Hm|Hm].
    + rewrite (bool_decide_eq_true_2 _ Hm). destruct (bench1_T lab b h (Hb Hm)) as [[r0 Hr0] Hall]. split.
      * destruct (Hall r0 Hr0) as (h1 & out & -> & _). destruct (IH h1) as [[r2 Hr2] _]. eexists. exists (Ok (h1, out)). split; [exact Hr0|]. exists r2. split; [exact Hr2|reflexivity].
      * intros r (r1 & Hr1 & Hr'). destruct (Hall r1 Hr1) as (h1 & out & -> & K1 & K2 & K3 & K4). destruct Hr' as (r2 & Hr2 & ->). rewrite fmap_cons. cbn [fst].
        apply (ends_app_T [lab] _ h h1); [exact K1|exact K2|exact K3|exact K4|]. apply (proj2 (IH h1)), Hr2.
    + rewrite (bool_decide_eq_false_2 _ Hm). apply IH.
Qed.
Lemma passes_T labs bs : Forall2 inMode labs bs -> forall k h,
  (exists r, passes pick null0 s tnum bs k h r) /\
  forall r, passes pick null0 s tnum bs k h r -> endsT (mjoin (replicate k (fst <$> filter (fun p => modeOf s ∈ b_modes (snd p)) (zip labs bs)))) h r.
Proof.
  intros Hb. induction k as [|k IH]; intros h.
  - split; [eexists; reflexivity|]. intros r ->. exists h, []. split; [reflexivity|]. split; [reflexivity|]. split; [reflexivity|]. split; [reflexivity|constructor].
  - cbn [passes]. destruct (pass_T labs bs Hb h) as [[r0 Hr0] Hall]. split.
    + destruct (Hall r0 Hr0) as (h1 & out & -> & _). destruct (IH h1) as [[r2 Hr2] _]. eexists. exists (Ok (h1, out)). split; [exact Hr0|]. exists r2. split; [exact Hr2|reflexivity].
    + intros r (r1 & Hr1 & Hr'). destruct (Hall r1 Hr1) as (h1 & out & -> & K1 & K2 & K3 & K4). destruct Hr' as (r2 & Hr2 & ->). change (replicate (S k) ?x) with (x :: replicate k x). rewrite mjoin_cons.
      apply ends_app_T with (h1 := h1); [exact K1|exact K2|exact K3|exact K4|]. apply (proj2 (IH h1)), Hr2.
Qed.
Lemma pass_stop labs bs b bs' e : Forall2 inMode labs bs -> modeOf s ∈ b_modes b -> (forall h r, bench1 pick null0 s tnum b h r <-> r = Err e) ->
  forall h r, pass pick null0 s tnum (bs ++ b :: bs') h r <-> r = Err e.
Proof.
  intros HF Hm Hb. induction HF as [|lab b0 labs bs Hb0 Hbs IH]; intros h r.
  - cbn [app pass]. rewrite (bool_decide_eq_true_2 _ Hm). split.
    + intros (r1 & Hr1 & Hrest). apply Hb in Hr1. subst r1. exact Hrest.
    + intros ->. exists (Err e). split; [apply Hb; reflexivity|reflexivity].
  - cbn [app pass]. destruct (decide (modeOf s ∈ b_modes b0)) as [Hm0|Hm0]; [rewrite (bool_decide_eq_true_2 _ Hm0)|rewrite (bool_decide_eq_false_2 _ Hm0); apply IH].
    destruct (bench1_T lab b0 h (Hb0 Hm0)) as [[r0 Hr0] Hall]. split.
    + intros (r1 & Hr1 & Hr'). destruct (Hall r1 Hr1) as (h1 & out & -> & _). destruct Hr' as (r2 & Hr2 & ->). apply IH in Hr2. subst r2. reflexivity.
    + intros ->. destruct (Hall r0 Hr0) as (h1 & out & -> & _). exists (Ok (h1, out)). split; [exact Hr0|]. exists (Err e). split; [apply IH; reflexivity|reflexivity].
Qed.
End Loops.

(** ** The products of TriCntAll *)
Definition tri_labels_all : list text := tri_inner ++ tri_msa ++ tri_hash ++ tri_heap ++ tri_isect ++ tri_all1p ++ tri_all2p.
Section Benches.
Context (X L : csc Z) (T : csr Z) (n itmax tnum : nat) (p : nat -> nat) (E : list (nat * nat * Z)) (es : list (nat * nat)) (ts : list (nat * nat * nat)).
Context (HX : wf_csc X) (Hr : c_rows X = n) (Hc : c_cols X = n) (Hp : permutes n p).
Context (HE : forall i j, edge T i j <-> j < i /\ exists a b, joined X a b /\ i = p a /\ j = p b).
Context (HLk : forall i j, linked E i j <-> joined X i j) (Hes : closing_edges E p es) (Hts : file_triangles E ts).
Context (HG : GraphSpec.good n T) (HL : wf_csc L) (Hsm : same_matrix T L) (Hsc : sorted_cols L) (H1 : 1 <= n) (Ht : 1 <= tnum) (Hones : allOnes T) (Hnz : nnz T <> 0).
Context (Hn : (N.of_nat n < 2 ^ 31)%N) (Hit : (2 ^ 63 - 1 <= Z.of_nat itmax)%Z) (Htn : (Z.of_nat tnum <= intmax)%Z).
Context (stdsortK : list (nat * Z) -> list (nat * Z)) (HK : sort_contract (fun _ _ => False) stdsortK).
(** The sum of a line. *)
Definition sumT (lab : text) : Z := (Z.of_nat (if bool_decide (lab = txt "HashIntersect") then length es else length ts) mod M64)%Z.
Local Notation BT := (benchT tnum (ts <> []) (length es) sumT).

Lemma count_T R : isProduct64 T R -> nnz R = length es.
Proof. apply (product_count X n p T E HX Hr Hc Hp HG HE HLk es Hes). Qed.
Lemma es_some : ts <> [] -> length es <> 0.
Proof. intros Hne He. apply Hne. apply (closing_triangles X n p T E HX Hr Hc Hp HE HLk es Hes ts Hts). apply nil_length_inv, He. Qed.
Lemma sum_T R : isProduct64 T R -> forall x, sumall_result 0%Z (stepInt 64) (plusInt 64) (values R) (nnz R) x -> x = (Z.of_nat (length ts) mod M64)%Z.
Proof.
  intros HQ x Hx. apply (sum64 n T R HG Hones HQ) in Hx. rewrite Hx.
  assert (Htr : triangles X ts) by (destruct Hts as [N1 N2]; split; [exact N1|]; intros a b c; rewrite N2, !HLk; reflexivity).
  rewrite <- (Permutation_length (img_tris X n p T HX Hr Hc Hp HG HE ts Htr)), fmap_length. reflexivity.
Qed.
Lemma shape_wf (R : csr Z) : wf R -> RunSpec.shape R.
Proof. intros HwR. split; [apply (wf_len R HwR)|]. split; [apply (wf_colids R HwR)|apply (wf_values R HwR)]. Qed.
Lemma bench_plain lab ms nm k prod : processAlgorithmName nm = Ok lab -> lab <> txt "HashIntersect" -> k = K1p \/ k = K2p \/ k = KOver -> plainP T tnum prod -> BT lab (mkBench ms nm k prod).
Proof.
  intros Hnm Hlab Hk [Hex HQ]. split; [exact Hnm|]. split; [destruct Hk as [-> | [-> | ->]]; exact I|]. split; [exact Hex|]. cbn [b_kind b_prod]. pose proof HG as (_ & _ & HrT & _). split.
  - intros nz R HR. apply HQ in HR. pose proof HR as (HwR & HrR & _). split; [split; [apply shape_wf, HwR|destruct Hk as [-> | [-> | ->]]; exact I]|]. split; [lia|].
    intros Hne. rewrite (count_T R HR). apply es_some, Hne.
  - intros R HR. apply HQ in HR. split; [apply count_T, HR|]. intros x Hx. unfold sumT. rewrite bool_decide_eq_false_2 by exact Hlab. eapply sum_T; eauto.
Qed.
Lemma bench_nohash lab ms nm : (N.of_nat (n + 1) < 2 ^ 17)%N -> processAlgorithmName nm = Ok lab -> lab <> txt "HashIntersect" ->
  BT lab (mkBench ms nm (KNohash (rows T) (nnz T)) (productNohash itmax T L)).
Proof.
  intros Hs17 Hnm Hlab. destruct (nohash_call T L n itmax tnum HG HL Hsm Hsc H1 Ht Hn Hit Htn Hs17) as (Hex & HQ & C & HC & Hall). pose proof HG as (_ & _ & HrT & _).
  split; [exact Hnm|]. split; [cbn [b_kind]; split; [lia|exact Hnz]|]. split; [exact Hex|]. cbn [b_kind b_prod]. split.
  - intros nz R HR. destruct (Hall nz R HR) as (K1 & K2 & K3). split; [split; [exact K1|exact I]|]. split; [lia|]. intros Hne. rewrite K3, (count_T C (HQ C HC)). pose proof (es_some Hne). lia.
  - intros R HR. apply HQ in HR. split; [apply count_T, HR|]. intros x Hx. unfold sumT. rewrite bool_decide_eq_false_2 by exact Hlab. eapply sum_T; eauto.
Qed.
Lemma isect_count nz R : (N.of_nat (n + 1) < 2 ^ 17)%N -> productIsect stdsortK itmax T tnum nz R -> nnz R = length es.
Proof.
  intros Hs17 HR. destruct (isect_call T n itmax tnum HG H1 Ht Hn Hit Htn Hs17 stdsortK HK) as [_ Hall].
  destruct (Hall nz R HR) as (Q1 & Q2 & Q3 & Q4 & Q5). apply (closing_count X n p T E HX Hr Hc Hp HG HE HLk es Hes); [exact Q1|intros i Hi; apply SSorted_NoDup, Q4, Hi|exact Q2|].
    intros i j Hi. unfold row_cols at 1. rewrite elem_of_list_fmap. split.
    - intros ([j' v] & -> & Hin). apply Q5 in Hin as [K1 K2]; [|exact Hi]. split; [apply elem_of_list_fmap; exists (j', v); auto|exact K2].
    - intros [K1 K2]. apply elem_of_list_fmap in K1 as ([j' v] & E1 & K1). cbn [fst] in E1. subst j'. exists (j, v). split; [reflexivity|]. apply Q5; auto.
Qed.
Lemma bench_isect ms : (N.of_nat (n + 1) < 2 ^ 17)%N -> ts <> [] -> BT (txt "HashIntersect") (mkBench ms (str "HashIntersect") KAssign (productIsect stdsortK itmax T)).
Proof.
  intros Hs17 Hne. destruct (isect_call T n itmax tnum HG H1 Ht Hn Hit Htn Hs17 stdsortK HK) as [Hex Hall]. pose proof HG as (_ & _ & HrT & _).
  assert (Hcnt : forall nz R, productIsect stdsortK itmax T tnum nz R -> nnz R = length es) by (intros nz R; apply isect_count, Hs17).
  split; [vm_compute; reflexivity|]. split; [exact I|]. split; [exact Hex|]. cbn [b_kind b_prod]. pose proof (es_some Hne) as He. split.
  - intros nz R HR. destruct (Hall nz R HR) as (Q1 & Q2 & Q3 & Q4 & Q5). rewrite (Hcnt nz R HR). split; [|split; [lia|intros _; exact He]].
    split; [apply shape_wf, Q1|]. split; [exact Q1|]. rewrite (Hcnt nz R HR). exact He.
  - intros R HR. split; [eapply Hcnt, HR|]. intros x Hx. unfold sumT. rewrite bool_decide_eq_true_2 by reflexivity. destruct (Hall 0 R HR) as (Q1 & Q2 & Q3 & Q4 & Q5).
    rewrite C32_sumall in Hx by (rewrite (wf_values R Q1); lia). rewrite take_ge in Hx by (rewrite (wf_values R Q1); lia). rewrite Hx. change (2 ^ Z.of_N 64)%Z with M64. f_equal.
    rewrite <- (Hcnt 0 R HR), <- (wf_values R Q1).
    assert (Hv : forall v, v ∈ values R -> v = 1%Z).
    { intros v Hv. rewrite (wf_assemble R Q1) in Hv. unfold assemble in Hv. cbn [values] in Hv. apply elem_of_list_fmap in Hv as ([j v'] & -> & Hv). unfold rowsOf in Hv.
      apply elem_of_list_join in Hv as (l & Hv & Hl'). apply elem_of_list_fmap in Hl' as (i & -> & Hi). apply elem_of_seq in Hi. apply Q5 in Hv as [Hv _]; [|lia].
      exact (Hones i (j, v') Hv). }
    clear -Hv. induction (values R) as [|v l IH]; [reflexivity|]. cbn [fold_right length]. rewrite (Hv v) by left. rewrite IH; [lia|]. intros y Hy. apply Hv. right. exact Hy.
Qed.
Lemma isect_empty nz R : (N.of_nat (n + 1) < 2 ^ 17)%N -> ts = [] -> productIsect stdsortK itmax T tnum nz R -> wf R /\ rows R <> 0 /\ cols R <> 0 /\ nnz R = 0.
Proof.
  intros Hs' Hne HR. destruct (isect_call T n itmax tnum HG H1 Ht Hn Hit Htn Hs' stdsortK HK) as [_ Hall]. destruct (Hall nz R HR) as (Q1 & Q2 & Q3 & Q4 & Q5).
  split; [exact Q1|]. split; [lia|]. split; [lia|].
  assert (He : es = []) by (apply (closing_triangles X n p T E HX Hr Hc Hp HE HLk es Hes ts Hts); exact Hne).
  replace 0 with (length es) by (rewrite He; reflexivity). apply (isect_count nz R Hs' HR).
Qed.

Context (s : settings).
Context (Hs17 : modeOf s ∈ [txt "inner"; txt "dot"; txt "msa"; txt "hash"; txt "intersect"; txt "all"] -> (N.of_nat (n + 1) < 2 ^ 17)%N).
Context (Hno : modeOf s <> txt "all1p").
Lemma triBenches_gen : Forall2 (fun lab b => modeOf s ∈ b_modes b -> (modeOf s ∈ [txt "intersect"; txt "all"] -> lab = txt "HashIntersect" -> ts <> []) -> BT lab b) tri_labels_all (triBenches stdsortK itmax T L).
Proof.
  pose proof (plainI1 T L n tnum HG HL Hsm Hsc H1 Ht) as I1. pose proof (plainI2 T L n tnum HG HL Hsm Hsc H1 Ht) as I2.
  pose proof (fun two sz H => plain_msa1 T L n itmax tnum HG HL Hsm Hsc H1 Ht Hn two sz H) as M1. pose proof (fun two sz H => plain_msa2 T L n itmax tnum HG HL Hsm Hsc H1 Ht Hn two sz H) as M2.
  pose proof (plain_mca2 T L n itmax tnum HG HL Hsm Hsc H1 Ht Hn) as Mc2.
  pose proof (plain_hash1 T L n itmax tnum HG HL Hsm Hsc H1 Ht Hn) as Ha1. pose proof (plain_hash2 T L n itmax tnum HG HL Hsm Hsc H1 Ht Hn) as Ha2.
  pose proof (fun insp H => plain_heap1 T L n itmax tnum HG HL Hsm Hsc H1 Ht Hn Hit insp H) as He1. pose proof (fun insp H => plain_heap2 T L n itmax tnum HG HL Hsm Hsc H1 Ht Hn Hit insp H) as He2.
  pose proof (plain_spa T L n itmax tnum HG HL Hsm Hsc H1 Ht Hn Hit Htn) as Sp. pose proof (plain_hashMask T L n itmax tnum HG HL Hsm Hsc H1 Ht Hn Hit Htn) as Hm.
  pose proof (plain_wobin T L n itmax tnum HG HL Hsm Hsc H1 Ht Hn Hit Htn) as Wo.
  apply Forall2_cons; split; [intros Hm0 _; apply bench_nohash; [apply Hs17; clear -Hm0; cbn [b_modes] in Hm0; rewrite !elem_of_cons in *; tauto|vm_compute; reflexivity|vm_compute; discriminate]|].
  apply Forall2_cons; split; [intros Hm0 _; apply bench_plain; [vm_compute; reflexivity|vm_compute; discriminate|left; reflexivity|exact I1]|].
  apply Forall2_cons; split; [intros Hm0 _; apply bench_plain; [vm_compute; reflexivity|vm_compute; discriminate|left; reflexivity|exact I2]|].
  apply Forall2_cons; split; [intros Hm0 _; apply bench_plain; [vm_compute; reflexivity|vm_compute; discriminate|left; reflexivity|exact I1]|].
  apply Forall2_cons; split; [intros Hm0 _; apply bench_plain; [vm_compute; reflexivity|vm_compute; discriminate|left; reflexivity|exact I2]|].
  apply Forall2_cons; split; [intros Hm0 _; apply bench_plain; [vm_compute; reflexivity|vm_compute; discriminate|right; right; reflexivity|apply Sp; apply Hs17; clear -Hm0; cbn [b_modes] in Hm0; rewrite !elem_of_cons in *; tauto]|].
  apply Forall2_cons; split; [intros Hm0 _; apply bench_plain; [vm_compute; reflexivity|vm_compute; discriminate|left; reflexivity|apply M1; lia]|].
  apply Forall2_cons; split; [intros Hm0 _; apply bench_plain; [vm_compute; reflexivity|vm_compute; discriminate|right; left; reflexivity|apply M2; lia]|].
  apply Forall2_cons; split; [intros Hm0 _; apply bench_plain; [vm_compute; reflexivity|vm_compute; discriminate|left; reflexivity|apply M1; lia]|].
  apply Forall2_cons; split; [intros Hm0 _; apply bench_plain; [vm_compute; reflexivity|vm_compute; discriminate|right; left; reflexivity|apply M2; lia]|].
  apply Forall2_cons; split; [intros Hm0 _; apply bench_plain; [vm_compute; reflexivity|vm_compute; discriminate|left; reflexivity|apply M1; lia]|].
  apply Forall2_cons; split; [intros Hm0 _; apply bench_plain; [vm_compute; reflexivity|vm_compute; discriminate|right; left; reflexivity|apply M2; lia]|].
  apply Forall2_cons; split; [intros Hm0 _; apply bench_plain; [vm_compute; reflexivity|vm_compute; discriminate|left; reflexivity|apply M1; lia]|].
  apply Forall2_cons; split; [intros Hm0 _; apply bench_plain; [vm_compute; reflexivity|vm_compute; discriminate|right; left; reflexivity|apply M2; lia]|].
  apply Forall2_cons; split; [intros Hm0 _; apply bench_plain; [vm_compute; reflexivity|vm_compute; discriminate|right; right; reflexivity|apply Wo; apply Hs17; clear -Hm0; cbn [b_modes] in Hm0; rewrite !elem_of_cons in *; tauto]|].
  apply Forall2_cons; split; [intros Hm0 _; apply bench_plain; [vm_compute; reflexivity|vm_compute; discriminate|right; right; reflexivity|apply Hm; apply Hs17; clear -Hm0; cbn [b_modes] in Hm0; rewrite !elem_of_cons in *; tauto]|].
  apply Forall2_cons; split; [intros Hm0 _; apply bench_plain; [vm_compute; reflexivity|vm_compute; discriminate|left; reflexivity|exact Ha1]|].
  apply Forall2_cons; split; [intros Hm0 _; apply bench_plain; [vm_compute; reflexivity|vm_compute; discriminate|right; left; reflexivity|exact Ha2]|].
  apply Forall2_cons; split; [intros Hm0 _; apply bench_plain; [vm_compute; reflexivity|vm_compute; discriminate|left; reflexivity|apply He1; lia]|].
  apply Forall2_cons; split; [intros Hm0 _; apply bench_plain; [vm_compute; reflexivity|vm_compute; discriminate|right; left; reflexivity|apply He2; lia]|].
  apply Forall2_cons; split; [intros Hm0 _; apply bench_plain; [vm_compute; reflexivity|vm_compute; discriminate|left; reflexivity|apply He1; lia]|].
  apply Forall2_cons; split; [intros Hm0 _; apply bench_plain; [vm_compute; reflexivity|vm_compute; discriminate|right; left; reflexivity|apply He2; lia]|].
  apply Forall2_cons; split; [intros Hm0 _; apply bench_plain; [vm_compute; reflexivity|vm_compute; discriminate|left; reflexivity|apply He1; lia]|].
  apply Forall2_cons; split; [intros Hm0 _; apply bench_plain; [vm_compute; reflexivity|vm_compute; discriminate|right; left; reflexivity|apply He2; lia]|].
  apply Forall2_cons; split; [intros Hm0 _; apply bench_plain; [vm_compute; reflexivity|vm_compute; discriminate|left; reflexivity|apply He1; lia]|].
  apply Forall2_cons; split; [intros Hm0 _; apply bench_plain; [vm_compute; reflexivity|vm_compute; discriminate|right; left; reflexivity|apply He2; lia]|].
  apply Forall2_cons; split; [intros Hm0 _; apply bench_plain; [vm_compute; reflexivity|vm_compute; discriminate|left; reflexivity|apply He1; lia]|].
  apply Forall2_cons; split; [intros Hm0 _; apply bench_plain; [vm_compute; reflexivity|vm_compute; discriminate|right; left; reflexivity|apply He2; lia]|].
  apply Forall2_cons; split; [intros Hm0 _; apply bench_plain; [vm_compute; reflexivity|vm_compute; discriminate|left; reflexivity|apply He1; lia]|].
  apply Forall2_cons; split; [intros Hm0 _; apply bench_plain; [vm_compute; reflexivity|vm_compute; discriminate|right; left; reflexivity|apply He2; lia]|].
  apply Forall2_cons; split; [intros Hm0 _; apply bench_plain; [vm_compute; reflexivity|vm_compute; discriminate|left; reflexivity|apply He1; lia]|].
  apply Forall2_cons; split; [intros Hm0 _; apply bench_plain; [vm_compute; reflexivity|vm_compute; discriminate|right; left; reflexivity|apply He2; lia]|].
  apply Forall2_cons; split; [intros Hm0 _; apply bench_plain; [vm_compute; reflexivity|vm_compute; discriminate|left; reflexivity|apply He1; lia]|].
  apply Forall2_cons; split; [intros Hm0 _; apply bench_plain; [vm_compute; reflexivity|vm_compute; discriminate|right; left; reflexivity|apply He2; lia]|].
  apply Forall2_cons; split; [intros Hm0 _; apply bench_plain; [vm_compute; reflexivity|vm_compute; discriminate|left; reflexivity|apply He1; lia]|].
  apply Forall2_cons; split; [intros Hm0 _; apply bench_plain; [vm_compute; reflexivity|vm_compute; discriminate|right; left; reflexivity|apply He2; lia]|].
  apply Forall2_cons; split; [intros Hm0 Hti; apply bench_isect; [apply Hs17; clear -Hm0; cbn [b_modes] in Hm0; rewrite !elem_of_cons in *; tauto|apply Hti; [exact Hm0|reflexivity]]|].
  apply Forall2_cons; split; [intros Hm0 _; destruct Hno; apply elem_of_list_singleton; exact Hm0|].
  apply Forall2_cons; split; [intros Hm0 _; destruct Hno; apply elem_of_list_singleton; exact Hm0|].
  apply Forall2_cons; split; [intros Hm0 _; destruct Hno; apply elem_of_list_singleton; exact Hm0|].
  apply Forall2_cons; split; [intros Hm0 _; destruct Hno; apply elem_of_list_singleton; exact Hm0|].
  apply Forall2_cons; split; [intros Hm0 _; destruct Hno; apply elem_of_list_singleton; exact Hm0|].
  apply Forall2_cons; split; [intros Hm0 _; destruct Hno; apply elem_of_list_singleton; exact Hm0|].
  apply Forall2_cons; split; [intros Hm0 _; destruct Hno; apply elem_of_list_singleton; exact Hm0|].
  apply Forall2_cons; split; [intros Hm0 _; destruct Hno; apply elem_of_list_singleton; exact Hm0|].
  apply Forall2_cons; split; [intros Hm0 _; apply bench_plain; [vm_compute; reflexivity|vm_compute; discriminate|left; reflexivity|exact I2]|].
  apply Forall2_cons; split; [intros Hm0 _; apply bench_plain; [vm_compute; reflexivity|vm_compute; discriminate|right; left; reflexivity|apply He2; lia]|].
  apply Forall2_cons; split; [intros Hm0 _; apply bench_plain; [vm_compute; reflexivity|vm_compute; discriminate|right; left; reflexivity|apply He2; lia]|].
  apply Forall2_cons; split; [intros Hm0 _; apply bench_plain; [vm_compute; reflexivity|vm_compute; discriminate|right; left; reflexivity|exact Ha2]|].
  apply Forall2_cons; split; [intros Hm0 _; apply bench_plain; [vm_compute; reflexivity|vm_compute; discriminate|right; left; reflexivity|apply M2; lia]|].
  apply Forall2_cons; split; [intros Hm0 _; apply bench_plain; [vm_compute; reflexivity|vm_compute; discriminate|right; left; reflexivity|apply M2; lia]|].
  apply Forall2_cons; split; [intros Hm0 _; apply bench_plain; [vm_compute; reflexivity|vm_compute; discriminate|right; left; reflexivity|exact Mc2]|].
  constructor.
Qed.
Lemma triBenches_ok : (modeOf s ∈ [txt "intersect"; txt "all"] -> ts <> []) -> Forall2 (inMode s tnum (ts <> []) (length es) sumT) tri_labels_all (triBenches stdsortK itmax T L).
Proof. intros Htri. eapply Forall2_impl; [exact triBenches_gen|]. intros lab b H Hm. apply H; [exact Hm|intros K _; apply Htri, K]. Qed.
(** The 36 products before HashIntersect. *)
Lemma triBenches_before : Forall2 (inMode s tnum (ts <> []) (length es) sumT) (take 36 tri_labels_all) (take 36 (triBenches stdsortK itmax T L)).
Proof.
  assert (Hl : forall lab, lab ∈ take 36 tri_labels_all -> lab <> txt "HashIntersect").
  { assert (K : Forall (fun lab => lab <> txt "HashIntersect") (take 36 tri_labels_all)) by (apply (bool_decide_unpack _); vm_compute; exact I). rewrite Forall_forall in K. exact K. }
  apply Forall2_same_length_lookup. split; [reflexivity|]. intros k lab b H1' H2' Hm. apply elem_of_list_lookup_2 in H1' as Hin. apply Hl in Hin. apply lookup_take_Some in H1' as [H1' _]. apply lookup_take_Some in H2' as [H2' _].
  apply (Forall2_lookup_lr _ _ _ k lab b triBenches_gen H1' H2' Hm). intros _ Ex. destruct (Hin Ex).
Qed.
End Benches.
