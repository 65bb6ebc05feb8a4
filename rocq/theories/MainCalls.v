(** The products that ComplementMaskedSpGEMM.cpp runs, on the matrix of a file. *)
From Coq Require Import NArith ZArith Ascii String.
From stdpp Require Import numbers list_numbers sorting.
From Verif Require Import BaseProofs ComplProofs McaProofs HeapStatements HashModel WorkProofs DriverStatements SeqStatements Assemble MatSpec ConvProofs MatStatements PropMat TransFill
  IndexModel PropIndex PropReport TriProofs IoSpec IoModel PropIo GraphCalls AlgModel DriverModel TriAllModel TriAllCalls RunSpec RunProofs PropRun MainModel MainSpec MainProofs.
From Verif Require Import Base Spec.
Local Open Scope nat_scope.
Local Notation M64 := (2 ^ 64)%Z.

Lemma means_length f : length (means f) <= 2 * length (mm_entries f).
Proof.
  unfold means. induction (mm_entries f) as [|e l IH]; [simpl; lia|]. rewrite fmap_cons, mjoin_cons, app_length. cbn [length].
  assert (length (entry_means f e) <= 2); [|lia]. destruct e as [[[r c] v] fr]. unfold entry_means. destruct (mm_symm f), (r =? c); simpl; lia.
Qed.
Lemma NoDup_part {X} (ll : list (list X)) l : NoDup (mjoin ll) -> l ∈ ll -> NoDup l.
Proof.
  intros Hn Hl. induction ll as [|l' ll IH]; [inversion Hl|]. rewrite mjoin_cons in Hn. apply NoDup_app in Hn as (H1 & _ & H2).
  apply elem_of_cons in Hl as [->|Hl]; auto.
Qed.
Lemma triples_row_NoDup (X : csr Z) : NoDup (fst <$> triples X) -> distinct_rows X.
Proof.
  intros Hn i Hi. unfold triples in Hn. rewrite ConvProofs.mjoin_fmap, <- list_fmap_compose in Hn.
  apply (NoDup_part _ ((fmap fst ∘ (fun i : nat => (fun e : nat * Z => (i, fst e, snd e)) <$> row_entries X i)) i)) in Hn; [|apply elem_of_list_fmap; exists i; split; [reflexivity|apply elem_of_seq; lia]].
  unfold compose in Hn. rewrite <- list_fmap_compose in Hn. apply (NoDup_fmap_1 (pair i)). unfold row_cols. rewrite <- list_fmap_compose. exact Hn.
Qed.

Lemma input_ok ltV stdsort itmax f t n : sort_contract ltV stdsort -> (intmax <= Z.of_nat itmax)%Z -> mm_wf f -> mm_symm f <> SymSkew -> values_integral f ->
  mm_rows f = n -> mm_cols f = n -> NoDup (epos <$> means f) -> file_text f t ->
  exists X T, (forall r, readASCII ofInt64 0%Z stdsort (Z.of_nat itmax) (Some t) r <-> r = Ok X) /\ wf_csc X /\ c_rows X = n /\ c_cols X = n /\
    csrOfCsc 0%Z X = Ok T /\ wf T /\ rows T = n /\ cols T = n /\ sorted_rows T /\ (fun e => (fst e, (snd e mod M64)%Z)) <$> means f ≡ₚ triples T /\
    (N.of_nat (nnz T) < 2 ^ 31)%N /\ (N.of_nat n < 2 ^ 31)%N /\ n <= itmax.
Proof.
  intros Hs Hi Hwf Hsk Hint Hr Hc Hn Ht.
  destruct (C53_read_csc_partial Z ofInt64 ltV 0%Z stdsort Hs (Z.of_nat itmax) f t Hi Hwf Hsk Hint ltac:(congruence) Ht) as (X & HX & HwX & HrX & HcX & HtX & _).
  destruct (C31_conversion Z 0%Z X HwX) as (T & ET & HwT & [E1 E2 _] & _ & HtT & Hrow).
  assert (HP : (fun e => (fst e, (snd e mod M64)%Z)) <$> means f ≡ₚ triples T) by (rewrite HtT, HtX; reflexivity).
  exists X, T. split; [exact HX|]. split; [exact HwX|]. split; [congruence|]. split; [congruence|]. split; [exact ET|]. split; [exact HwT|]. split; [congruence|]. split; [congruence|].
  split; [|split; [exact HP|]].
  - intros i Hi'. assert (Hd : distinct_rows T).
    { apply triples_row_NoDup. rewrite <- HP, <- list_fmap_compose. exact Hn. }
    destruct (Hrow i Hi') as (_ & Hle & _). specialize (Hd i Hi'). clear -Hle Hd. induction Hle as [|x l Hl IH Hx]; [constructor|].
    apply NoDup_cons in Hd as [H1 H2]. constructor; [apply IH, H2|]. rewrite Forall_forall in *. intros y Hy. specialize (Hx y Hy). assert (x <> y) by congruence. lia.
  - destruct Hwf as (_ & _ & H1 & _ & H2 & _). pose proof (means_length f) as Hm. rewrite <- (triples_length T HwT), <- (Permutation_length HP), fmap_length. unfold intmax in *. lia.
Qed.

(** ** The results *)
Definition good (T : csr Z) (srt : bool) (C : csr Z) : Prop :=
  product_matrix T T C (fun i l => is_compl_row mul64 add64 T T T i l /\ if srt then StronglySorted lt (fst <$> l) else fst <$> l = compl_cols T T T i).
Lemma keys_values {X} (l l' : list (nat * X)) : NoDup (fst <$> l') -> fst <$> l = fst <$> l' -> (forall x, x ∈ l -> x ∈ l') -> l = l'.
Proof.
  intros Hn E Hin. apply list_eq. intros p. destruct (l !! p) as [[j v]|] eqn:Hp.
  - assert (Hk : (fst <$> l') !! p = Some j) by (rewrite <- E, list_lookup_fmap, Hp; reflexivity). rewrite list_lookup_fmap in Hk. destruct (l' !! p) as [[j' v']|] eqn:Hp'; [|discriminate].
    simpl in Hk. injection Hk as ->. specialize (Hin _ (elem_of_list_lookup_2 _ _ _ Hp)). apply elem_of_list_lookup in Hin as [q Hq].
    assert (q = p) as ->; [|congruence]. apply (NoDup_lookup _ q p j Hn); rewrite list_lookup_fmap; [rewrite Hq|rewrite Hp']; reflexivity.
  - symmetry. apply lookup_ge_None. apply lookup_ge_None in Hp. rewrite <- (fmap_length fst), <- E, fmap_length. exact Hp.
Qed.
Lemma good_unique T srt C C' : good T srt C -> good T srt C' -> C = C'.
Proof.
  intros (Hw & Hr & Hc & Hrow) (Hw' & Hr' & Hc' & Hrow'). apply wf_ext; [assumption|assumption|congruence|congruence|]. intros i Hi. rewrite Hr in Hi.
  destruct (Hrow i Hi) as [H1 H2], (Hrow' i Hi) as [H1' H2'].
  assert (E : fst <$> row_entries C i = fst <$> row_entries C' i).
  { destruct srt; [|congruence]. apply sorted_unique; [assumption..|]. intros x. rewrite (compl_keys _ _ _ _ _ _ _ H1), (compl_keys _ _ _ _ _ _ _ H1'). reflexivity. }
  apply keys_values; [apply H1'|exact E|]. intros [j v] Hx. apply H1', H1, Hx.
Qed.
Lemma good_rowptr T srt srt' C C' : good T srt C -> good T srt' C' -> rowptr C = rowptr C'.
Proof.
  intros (Hw & Hr & Hc & Hrow) (Hw' & Hr' & Hc' & Hrow').
  assert (Hl : forall i, i < rows T -> length (row_entries C i) = length (row_entries C' i)).
  { intros i Hi. destruct (Hrow i Hi) as [H1 _], (Hrow' i Hi) as [H1' _]. rewrite <- (fmap_length fst), <- (fmap_length fst (row_entries C' i)).
    apply Permutation_length, NoDup_Permutation; [apply H1|apply H1'|]. intros x. rewrite (compl_keys _ _ _ _ _ _ _ H1), (compl_keys _ _ _ _ _ _ _ H1'). reflexivity. }
  rewrite (wf_assemble C Hw), (wf_assemble C' Hw'). simpl. rewrite Hr, Hr'. apply list_fmap_ext. intros k i Hk. apply elem_of_list_lookup_2, elem_of_seq in Hk.
  assert (Hi : i <= rows T) by lia. clear -Hl Hi. induction i as [|i IH]; [reflexivity|]. rewrite !pre_S, IH, Hl by lia. reflexivity.
Qed.

Section Calls.
Context (T : csr Z) (n itmax : nat).
Context (HT : wf T) (Hr : rows T = n) (Hc : cols T = n) (Hs : sorted_rows T).
Context (Hnz : (N.of_nat (nnz T) < 2 ^ 31)%N) (Hn : (N.of_nat n < 2 ^ 31)%N) (Hit : n <= itmax) (H1 : 1 <= n).

Lemma compat_T : compatible T T T.
Proof. constructor; congruence. Qed.
Lemma distinct_T : distinct_rows T.
Proof. intros i Hi. apply SSorted_NoDup, Hs, Hi. Qed.
Lemma row_sub i : i < rows T -> row_cols T i ⊆+ seq 0 n.
Proof.
  intros Hi. apply NoDup_submseteq; [apply distinct_T, Hi|]. intros x Hx. apply elem_of_seq. pose proof (row_cols_range T i x HT Hx). lia.
Qed.
Lemma row_le i : i < rows T -> length (row_cols T i) <= n.
Proof. intros Hi. rewrite <- (seq_length n 0). apply submseteq_length, row_sub, Hi. Qed.
Lemma touched_le i : i < rows T -> length (touched_cols T T i) <= nnz T.
Proof.
  intros Hi. unfold touched_cols. rewrite mjoin_length, <- list_fmap_compose.
  assert (E : sum_list (length ∘ (fun ka : nat * Z => row_cols T (fst ka)) <$> row_entries T i) = sum_list ((fun k => length (row_cols T k)) <$> row_cols T i))
    by (change (row_cols T i) with (fst <$> row_entries T i); rewrite <- list_fmap_compose; reflexivity).
  rewrite E. clear E. destruct (submseteq_Permutation _ _ (row_sub i Hi)) as [k Hk].
  assert (Hall : sum_list ((fun k => length (row_cols T k)) <$> seq 0 n) = nnz T).
  { rewrite <- (triples_length T HT). unfold triples. rewrite mjoin_length, <- list_fmap_compose, Hr. f_equal. apply list_fmap_ext. intros ? x _. unfold compose, row_cols. rewrite !fmap_length. reflexivity. }
  rewrite <- Hall. clear Hall. assert (Hp : forall l l' : list nat, l ≡ₚ l' -> sum_list l = sum_list l') by (induction 1; simpl; lia).
  rewrite (Hp _ _ (fmap_Permutation _ _ _ Hk)), fmap_app, sum_list_app. lia.
Qed.

Lemma msa_call two srt sz : (0 < sz <= 16)%N -> exists C, good T srt C /\ yields1p (msaAlgC mul64 add64 two srt sz) T T T C /\ yields2p (msaAlgC mul64 add64 two srt sz) T T T C.
Proof. intros Hz. apply msaC_drivers; [apply compat_T|apply distinct_T|lia|lia|rewrite Hc; nia]. Qed.
Lemma hash_call srt : exists C, good T srt C /\ yields1p (hashAlgC mul64 add64 64 8 24 srt) T T T C /\ yields2p (hashAlgC mul64 add64 64 8 24 srt) T T T C.
Proof.
  apply (hashC_drivers mul64 add64 T T T 64 8 24 srt n (nnz T)); [apply compat_T|apply distinct_T|lia|lia|lia|apply row_le|apply touched_le| | |reflexivity].
  - unfold HashModel.fits. change (2 ^ (64 - 1))%N with 9223372036854775808%N. lia.
  - change (N.max 8 24) with 24%N. lia.
Qed.
Lemma heap_call : exists C, good T true C /\ yields1p (heapAlgC mul64 add64 itmax 24) T T T C /\ yields2p (heapAlgC mul64 add64 itmax 24) T T T C.
Proof.
  destruct (heapC_drivers mul64 add64 T T T itmax 24 n) as (C & (Hw & Hr' & Hc' & Hrow) & Hy); [apply compat_T|exact Hs|exact Hs|lia|lia|lia| |apply row_le|lia|].
  - intros i Hi Ht E. apply Ht. unfold touched_cols. unfold row_cols in E. apply fmap_nil_inv in E. rewrite E. reflexivity.
  - exists C. split; [|exact Hy]. split; [exact Hw|]. split; [exact Hr'|]. split; [exact Hc'|]. intros i Hi. destruct (Hrow i Hi) as (K1 & K2 & K3). split; [|exact K1].
    split; [apply SSorted_NoDup, K1|]. intros j v. split.
    + intros Hin. assert (Hj : j ∈ compl_cols T T T i) by (apply K2, elem_of_list_fmap; exists (j, v); auto). split; [apply elem_of_list_filter in Hj; apply Hj|].
      apply (some_order_unique add64 add64_comm add64_assoc mul64 T T), K3, Hin.
    + intros [Hj Hv]. assert (Hk : j ∈ fst <$> row_entries C i).
      { apply K2. rewrite <- (compl_keys mul64 add64 T T T i _ (crow_is_compl mul64 add64 true T T T i)). apply elem_of_list_fmap. exists (j, v). split; [reflexivity|].
        apply (crow_is_compl mul64 add64 true T T T i). auto. }
      apply elem_of_list_fmap in Hk as ([? w] & [= <-] & Hk). pose proof (some_order_unique add64 add64_comm add64_assoc mul64 T T i j w (K3 _ _ Hk)) as Ew. congruence.
Qed.
Lemma p1 alg C t nz R : yields1p alg T T T C -> 1 <= t -> product1p alg T t nz R <-> R = C.
Proof.
  intros Hy Ht. split.
  - intros H. apply (insert_inj (st3 T) 1). apply (driver1p_unique alg 0 0 0 1 t sc0 (st3 T)); [apply H|apply Hy]; auto.
  - intros ->. intros iA iC sc s _ HA. apply Hy; assumption.
Qed.
Lemma p2 alg C t nz R : yields2p alg T T T C -> 1 <= t -> product2p alg T t nz R <-> R = C.
Proof.
  intros Hy Ht. split.
  - intros H. apply (insert_inj (st3 T) 1). apply (driver2p_unique alg 0 0 0 1 2 t sc0 (st3 T)); [apply H|apply Hy]; auto.
  - intros ->. intros iA iC iR sc s _ HA HR HC. apply Hy; assumption.
Qed.
Definition benchOk (lab : text) (b : bench) : Prop :=
  (b_kind b = K1p \/ b_kind b = K2p) /\ processAlgorithmName (b_name b) = Ok lab /\
  exists C, good T (ordered_label lab) C /\ forall t nz R, 1 <= t -> b_prod b t nz R <-> R = C.
Lemma bench_p1 lab ms nm alg b C : processAlgorithmName nm = Ok lab -> ordered_label lab = b -> good T b C -> yields1p alg T T T C -> benchOk lab (mkBench ms nm K1p (product1p alg T)).
Proof. intros E <- G Y. split; [left; reflexivity|]. split; [exact E|]. exists C. split; [exact G|]. intros t nz R Ht. apply p1; [exact Y|exact Ht]. Qed.
Lemma bench_p2 lab ms nm alg b C : processAlgorithmName nm = Ok lab -> ordered_label lab = b -> good T b C -> yields2p alg T T T C -> benchOk lab (mkBench ms nm K2p (product2p alg T)).
Proof. intros E <- G Y. split; [right; reflexivity|]. split; [exact E|]. exists C. split; [exact G|]. intros t nz R Ht. apply p2; [exact Y|exact Ht]. Qed.
Lemma benches_ok : Forall2 benchOk (heap_labels ++ hash_labels ++ msa_labels) (compBenches itmax T).
Proof.
  destruct heap_call as (C1 & G1 & Y1 & Z1), (hash_call false) as (C2 & G2 & Y2 & Z2), (hash_call true) as (C3 & G3 & Y3 & Z3),
    (msa_call false false 16) as (C4 & G4 & Y4 & Z4), (msa_call false true 16) as (C5 & G5 & Y5 & Z5),
    (msa_call true false 8) as (C6 & G6 & Y6 & Z6), (msa_call true true 8) as (C7 & G7 & Y7 & Z7); [lia..|].
  apply Forall2_cons; split; [eapply (bench_p1 _ _ _ _ _ C1); [vm_compute; reflexivity| |exact G1|exact Y1]; vm_compute; reflexivity|].
  apply Forall2_cons; split; [eapply (bench_p2 _ _ _ _ _ C1); [vm_compute; reflexivity| |exact G1|exact Z1]; vm_compute; reflexivity|].
  apply Forall2_cons; split; [eapply (bench_p1 _ _ _ _ _ C2); [vm_compute; reflexivity| |exact G2|exact Y2]; vm_compute; reflexivity|].
  apply Forall2_cons; split; [eapply (bench_p2 _ _ _ _ _ C2); [vm_compute; reflexivity| |exact G2|exact Z2]; vm_compute; reflexivity|].
  apply Forall2_cons; split; [eapply (bench_p1 _ _ _ _ _ C3); [vm_compute; reflexivity| |exact G3|exact Y3]; vm_compute; reflexivity|].
  apply Forall2_cons; split; [eapply (bench_p2 _ _ _ _ _ C3); [vm_compute; reflexivity| |exact G3|exact Z3]; vm_compute; reflexivity|].
  apply Forall2_cons; split; [eapply (bench_p1 _ _ _ _ _ C4); [vm_compute; reflexivity| |exact G4|exact Y4]; vm_compute; reflexivity|].
  apply Forall2_cons; split; [eapply (bench_p2 _ _ _ _ _ C4); [vm_compute; reflexivity| |exact G4|exact Z4]; vm_compute; reflexivity|].
  apply Forall2_cons; split; [eapply (bench_p1 _ _ _ _ _ C5); [vm_compute; reflexivity| |exact G5|exact Y5]; vm_compute; reflexivity|].
  apply Forall2_cons; split; [eapply (bench_p2 _ _ _ _ _ C5); [vm_compute; reflexivity| |exact G5|exact Z5]; vm_compute; reflexivity|].
  apply Forall2_cons; split; [eapply (bench_p1 _ _ _ _ _ C6); [vm_compute; reflexivity| |exact G6|exact Y6]; vm_compute; reflexivity|].
  apply Forall2_cons; split; [eapply (bench_p2 _ _ _ _ _ C6); [vm_compute; reflexivity| |exact G6|exact Z6]; vm_compute; reflexivity|].
  apply Forall2_cons; split; [eapply (bench_p1 _ _ _ _ _ C7); [vm_compute; reflexivity| |exact G7|exact Y7]; vm_compute; reflexivity|].
  apply Forall2_cons; split; [eapply (bench_p2 _ _ _ _ _ C7); [vm_compute; reflexivity| |exact G7|exact Z7]; vm_compute; reflexivity|].
  constructor.
Qed.
End Calls.

(** ** The loops *)
Section Loops.
Context (pick : gmap nat (ablock Z) -> nat) (null0 : bool) (Hp : forall h, h !! pick h = None).
Context (T : csr Z) (n : nat) (E : list (nat * nat * Z)).
Context (HT : wf T) (Hr : rows T = n) (Hc : cols T = n) (H1 : 1 <= n) (HE : (fun e => (fst e, (snd e mod M64)%Z)) <$> E ≡ₚ triples T).
Context (s : settings) (tnum : nat) (Ht : 1 <= tnum).
Context (Hwn : 0 < warmupIters s + innerIters s) (Hw : (N.of_nat (warmupIters s) <= 2147483647)%N) (Hi : (N.of_nat (innerIters s) <= 2147483647)%N).
Local Notation heap := (gmap nat (ablock Z)).

Definition lineOk (lab : text) (l : line Z) : Prop :=
  l_threads l = tnum /\ positions_count E (l_nnz l) /\ l_sum l = (step_sum E mod M64)%Z /\
  exists C, good T (ordered_label lab) C /\ checksum bytesI bytesV 8 8 (rows C) (nnz C) (rowptr C) (colids C) (values C) = Ok (l_check l).
Definition endsOk (labs : list text) (h : heap) (r : res (heap * list (text * line Z))) : Prop :=
  exists h' out, r = Ok (h', out) /\ h ⊆ h' /\ (two_steps E <> [] -> h' = h) /\ fst <$> out = labs /\ Forall (fun p => lineOk (fst p) (snd p)) out.

Lemma good_comp srt C : good T srt C -> wf C /\ rows C = n /\ positions_count E (nnz C) /\
  forall r, sumall_result 0%Z (stepInt 64) (plusInt 64) (values C) (nnz C) r -> r = (step_sum E mod M64)%Z.
Proof.
  intros (HwC & HrC & _ & Hrow). split; [exact HwC|]. split; [congruence|].
  assert (HX : forall i, i < n -> is_compl_row mul64 add64 T T T i (row_entries C i)) by (intros i Hin; apply Hrow; lia).
  split; [exact (comp_count T C n HT Hr Hc HwC ltac:(congruence) HX E HE)|]. intros r Hsum.
  apply C32_sumall in Hsum; [|rewrite (wf_values C HwC); lia]. rewrite take_ge in Hsum by (rewrite (wf_values C HwC); lia). change (2 ^ Z.of_N 64)%Z with M64 in Hsum.
  rewrite Hsum, <- (comp_sum T C n HT Hr Hc ltac:(congruence) HX E HE). f_equal.
  rewrite (wf_assemble C HwC) at 1. cbn [assemble values]. unfold rowsOf. rewrite Nat.sub_0_r, sg_triples.
  change (fold_right Z.add 0%Z) with (fun l : list Z => foldr Z.add 0%Z l). cbn beta. rewrite zsum_sg, sg_fmap, sg_mjoin. reflexivity.
Qed.
Lemma good_result C : good T true C -> result_of E n C.
Proof.
  intros (HwC & HrC & HcC & Hrow).
  assert (HX : forall i, i < n -> is_compl_row mul64 add64 T T T i (row_entries C i)) by (intros i Hin; apply Hrow; rewrite Hr; exact Hin).
  split; [exact HwC|]. split; [congruence|]. split; [congruence|]. split; [|intros i j v; exact (comp_entry T C n HT Hr Hc HwC ltac:(congruence) HX E HE i j v)].
  intros i Hin. rewrite HrC in Hin. apply (Hrow i Hin).
Qed.
Lemma bench1_ok lab b h : benchOk T lab b ->
  (exists r, bench1 pick null0 s tnum b h r) /\ forall r, bench1 pick null0 s tnum b h r -> endsOk [lab] h r.
Proof.
  intros (Hk & Hnm & C & HG & Hprod). destruct (good_comp _ C HG) as (HwC & HrC & Hcnt & Hsum).
  assert (Hex : forall t nz, t ∈ [tnum] -> exists R, b_prod b t nz R) by (intros t nz Hin; apply elem_of_list_singleton in Hin as ->; exists C; apply Hprod; [exact Ht|reflexivity]).
  assert (Hsh : forall t nz R, t ∈ [tnum] -> b_prod b t nz R -> handed (b_kind b) R).
  { intros t nz R Hin HR. apply elem_of_list_singleton in Hin as ->. apply Hprod in HR as ->; [|exact Ht]. split; [|destruct Hk as [-> | ->]; exact I].
    split; [apply (wf_len C HwC)|]. split; [apply (wf_colids C HwC)|apply (wf_values C HwC)]. }
  assert (HI8 : forall a, length (bytesI a) = 8) by reflexivity. assert (HV8 : forall a, length (bytesV a) = 8) by reflexivity.
  destruct (C71_report Z Z 0%Z pick null0 0%Z (stepInt 64) (plusInt 64) bytesI bytesV 8 8 Hp HI8 HV8 (b_kind b) (b_prod b) _ _ [tnum] h Hwn Hw Hi Hex Hsh) as [[r0 Hr0] Hall].
  split; [eexists; exists r0; split; [exact Hr0|reflexivity]|].
  intros r (r1 & Hr1 & ->). destruct (Hall r1 Hr1) as (h' & ls & -> & Hsub & Hls). inversion Hls as [|? l ? ls' Hl Hnil]; subst. inversion Hnil; subst.
  cbn [bind]. rewrite Hnm. cbn [bind]. exists h', [(lab, l)]. split; [reflexivity|]. split; [exact Hsub|]. split; [|split; [reflexivity|]].
  - intros Hne. eapply (C71_release_partial Z Z 0%Z pick null0 0%Z (stepInt 64) (plusInt 64) bytesI bytesV 8 8 Hp HI8 HV8 (b_kind b) (b_prod b) _ _ [tnum] h Hwn Hw Hi Hex); [| |exact Hr1].
    + intros t nz R Hin HR. split; [eapply Hsh; eauto|]. apply elem_of_list_singleton in Hin as ->. apply Hprod in HR as ->; [|exact Ht]. split; [lia|].
      intros Hz. destruct Hcnt as (P & _ & HP & Hlen). rewrite Hz in Hlen. destruct P; [|discriminate]. apply Hne. destruct (two_steps E) as [|p l0]; [reflexivity|].
      exfalso. assert (Hb : step_pos p ∈ @nil (nat * nat)) by (apply HP; left). inversion Hb.
    + destruct Hk as [-> | ->]; exact I.
  - constructor; [|constructor]. cbn [fst snd]. destruct Hl as (Htn & nz & R & HR & _ & Hnz & Hs & Hck). apply Hprod in HR as ->; [|exact Ht].
    split; [exact Htn|]. rewrite Hnz. split; [exact Hcnt|]. split; [apply Hsum, Hs|]. eauto.
Qed.
Lemma ends_app labs labs' h h1 out r : h ⊆ h1 -> (two_steps E <> [] -> h1 = h) -> fst <$> out = labs -> Forall (fun p => lineOk (fst p) (snd p)) out ->
  endsOk labs' h1 r -> endsOk (labs ++ labs') h (' (h, ls') <- r ;; Ok (h, out ++ ls')).
Proof.
  intros K1 K2 K3 K4 (h' & out' & -> & L1 & L2 & L3 & L4). cbn [bind]. exists h', (out ++ out'). split; [reflexivity|]. split; [etransitivity; eassumption|].
  split; [intros Hne; rewrite L2 by exact Hne; auto|]. split; [rewrite fmap_app; congruence|]. apply Forall_app. auto.
Qed.
Lemma pass_ok labs bs : Forall2 (benchOk T) labs bs -> forall h,
  (exists r, pass pick null0 s tnum bs h r) /\ forall r, pass pick null0 s tnum bs h r -> endsOk (fst <$> filter (fun p => modeOf s ∈ b_modes (snd p)) (zip labs bs)) h r.
Proof.
  induction 1 as [|lab b labs bs Hb Hbs IH]; intros h.
  - split; [eexists; reflexivity|]. intros r ->. exists h, []. split; [reflexivity|]. split; [reflexivity|]. split; [reflexivity|]. split; [reflexivity|constructor].
  - cbn [pass]. change (zip (lab :: labs) (b :: bs)) with ((lab, b) :: zip labs bs). rewrite filter_cons. cbn [snd]. destruct (decide (modeOf s ∈ b_modes b)) as [Hm|Hm].
    + rewrite (bool_decide_eq_true_2 _ Hm). destruct (bench1_ok lab b h Hb) as [[r0 Hr0] Hall]. split.
      * destruct (Hall r0 Hr0) as (h1 & out & -> & _). destruct (IH h1) as [[r2 Hr2] _]. eexists. exists (Ok (h1, out)). split; [exact Hr0|]. exists r2. split; [exact Hr2|reflexivity].
      * intros r (r1 & Hr1 & Hr'). destruct (Hall r1 Hr1) as (h1 & out & -> & K1 & K2 & K3 & K4). destruct Hr' as (r2 & Hr2 & ->). rewrite fmap_cons. cbn [fst].
        apply (ends_app [lab] _ h h1); [exact K1|exact K2|exact K3|exact K4|]. apply (proj2 (IH h1)), Hr2.
    + rewrite (bool_decide_eq_false_2 _ Hm). apply IH.
Qed.
Lemma passes_ok labs bs : Forall2 (benchOk T) labs bs -> forall k h,
  (exists r, passes pick null0 s tnum bs k h r) /\
  forall r, passes pick null0 s tnum bs k h r -> endsOk (mjoin (replicate k (fst <$> filter (fun p => modeOf s ∈ b_modes (snd p)) (zip labs bs)))) h r.
Proof.
  intros Hb. induction k as [|k IH]; intros h.
  - split; [eexists; reflexivity|]. intros r ->. exists h, []. split; [reflexivity|]. split; [reflexivity|]. split; [reflexivity|]. split; [reflexivity|constructor].
  - cbn [passes]. destruct (pass_ok labs bs Hb h) as [[r0 Hr0] Hall]. split.
    + destruct (Hall r0 Hr0) as (h1 & out & -> & _). destruct (IH h1) as [[r2 Hr2] _]. eexists. exists (Ok (h1, out)). split; [exact Hr0|]. exists r2. split; [exact Hr2|reflexivity].
    + intros r (r1 & Hr1 & Hr'). destruct (Hall r1 Hr1) as (h1 & out & -> & K1 & K2 & K3 & K4). destruct Hr' as (r2 & Hr2 & ->). change (replicate (S k) ?x) with (x :: replicate k x). rewrite mjoin_cons.
      apply ends_app with (h1 := h1); [exact K1|exact K2|exact K3|exact K4|]. apply (proj2 (IH h1)), Hr2.
Qed.
End Loops.

(** ** Modes *)
Lemma toLower_cases a : toLower a = a \/ exists k, txt "ABCDEFGHIJKLMNOPQRSTUVWXYZ" !! k = Some a /\ txt "abcdefghijklmnopqrstuvwxyz" !! k = Some (toLower a).
Proof.
  assert (H : forallb (fun n => let a := ascii_of_nat n in bool_decide (toLower a = a) ||
    existsb (fun k => bool_decide (txt "ABCDEFGHIJKLMNOPQRSTUVWXYZ" !! k = Some a /\ txt "abcdefghijklmnopqrstuvwxyz" !! k = Some (toLower a))) (seq 0 26)) (seq 0 256) = true)
    by (vm_compute; reflexivity).
  rewrite forallb_forall in H. specialize (H (nat_of_ascii a)). rewrite ascii_nat_embedding in H.
  assert (Hin : In (nat_of_ascii a) (seq 0 256)) by (apply in_seq; pose proof (nat_ascii_bounded a); lia). specialize (H Hin). cbn zeta in H.
  apply orb_prop in H as [H|H]; [left; eapply bool_decide_eq_true_1, H|right]. apply existsb_exists in H as (k & _ & H). exists k. eapply bool_decide_eq_true_1, H.
Qed.
Lemma toLower_small b : toLower (toLower b) = toLower b.
Proof.
  assert (H : forallb (fun n => let a := ascii_of_nat n in bool_decide (toLower (toLower a) = toLower a)) (seq 0 256) = true) by (vm_compute; reflexivity).
  rewrite forallb_forall in H. specialize (H (nat_of_ascii b)). rewrite ascii_nat_embedding in H.
  assert (Hin : In (nat_of_ascii b) (seq 0 256)) by (apply in_seq; pose proof (nat_ascii_bounded b); lia). specialize (H Hin). cbn zeta in H. eapply bool_decide_eq_true_1, H.
Qed.
Lemma letters_lower k a b : txt "ABCDEFGHIJKLMNOPQRSTUVWXYZ" !! k = Some a -> txt "abcdefghijklmnopqrstuvwxyz" !! k = Some b -> toLower a = b.
Proof. intros Ha Hb. do 26 (destruct k as [|k]; [vm_compute in Ha, Hb; injection Ha as <-; injection Hb as <-; reflexivity|]). discriminate. Qed.
Lemma spells_lower t w : toLower <$> w = w -> spells t w <-> toLower <$> t = w.
Proof.
  intros Hw. split.
  - intros H. induction H as [|a b t w Hab H IH]; [reflexivity|]. rewrite fmap_cons in Hw. injection Hw as Hb Hw. rewrite fmap_cons. f_equal; [|apply IH, Hw].
    destruct Hab as [->|(k & Ka & Kb)]; [exact Hb|eapply letters_lower; eauto].
  - intros <-. clear Hw. induction t as [|a t IH]; [constructor|]. rewrite fmap_cons. constructor; [|exact IH]. destruct (toLower_cases a) as [->|H]; auto.
Qed.
