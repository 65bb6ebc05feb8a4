(** The products that MaskedAllSpGEMM.cpp calls, on the matrices of its files. *)
From Coq Require Import NArith ZArith Ascii String.
From stdpp Require Import numbers list_numbers gmap sorting.
From Verif Require Import BaseProofs WorkProofs ConcProofs Assemble MatSpec MatStatements ConvProofs PropReport IoSpec IoModel PropIo PropMat MatModel ParModel DriverModel DriverStatements TriAllProofs
  SpaModel MaskHashModel NohashModel HeapImplModel PropBin PropSpa PropMaskHash PropNohash PropHeapImpl MainSpec MainCalls RunSpec AllMainModel AllMainSpec AllMainProofs.
From Verif Require Import Base Spec.
Local Open Scope nat_scope.

(** ** Sums *)
Section Sums.
Context {V : Type} (add : V -> V -> V).
Lemma sums_perm l v : sums add l v -> forall l', l ≡ₚ l' -> sums add l' v.
Proof.
  destruct 1 as [x|l1 l2 l x y H1 H2 E]; intros l' P.
  - apply Permutation_length_1_inv in P. subst l'. constructor.
  - econstructor; [exact H1|exact H2|]. rewrite <- P. exact E.
Qed.
Lemma fold_sums_r l : forall l0 s, sums add l0 s -> sums add (l0 ++ l) (fold_left add l s).
Proof.
  induction l as [|x l IH]; intros l0 s H; [rewrite app_nil_r; exact H|]. cbn [fold_left]. replace (l0 ++ x :: l) with ((l0 ++ [x]) ++ l) by (rewrite <- app_assoc; reflexivity).
  apply IH. econstructor; [exact H|constructor|reflexivity].
Qed.
Lemma fold_sums_l l : forall l0 s, sums add l0 s -> sums add (l0 ++ l) (fold_left (fun s x => add x s) l s).
Proof.
  induction l as [|x l IH]; intros l0 s H; [rewrite app_nil_r; exact H|]. cbn [fold_left]. replace (l0 ++ x :: l) with ((l0 ++ [x]) ++ l) by (rewrite <- app_assoc; reflexivity).
  apply IH. econstructor; [constructor|exact H|]. apply Permutation_app_comm.
Qed.
Lemma sum1_sums l v : sum1 add l = Some v -> sums add l v.
Proof. destruct l as [|x l]; [discriminate|]. intros [= <-]. apply (fold_sums_r l [x]). constructor. Qed.
Lemma sum1_sums_l l v : sum1 (fun s x => add x s) l = Some v -> sums add l v.
Proof. destruct l as [|x l]; [discriminate|]. intros [= <-]. apply (fold_sums_l l [x]). constructor. Qed.
End Sums.
Lemma sum1_some {V} (add : V -> V -> V) l : (exists v, sum1 add l = Some v) <-> l <> [].
Proof. destruct l as [|x l]; [split; [intros [v [=]]|congruence]|split; [discriminate|intros _; eexists; reflexivity]]. Qed.
Lemma omap_sorted {X} (g : nat -> option (nat * X)) : (forall j e, g j = Some e -> fst e = j) -> forall l, StronglySorted lt l -> StronglySorted lt (fst <$> omap g l).
Proof.
  intros Hg. induction 1 as [|j l Hl IH Hj]; [constructor|]. cbn [omap list_omap]. destruct (g j) as [e|] eqn:E; [|exact IH]. rewrite fmap_cons, (Hg j e E). constructor; [exact IH|].
  rewrite Forall_forall in *. intros x Hx. apply elem_of_list_fmap in Hx as (y & -> & Hy). apply elem_of_list_omap in Hy as (k & Hk & Ek). rewrite (Hg k y Ek). auto.
Qed.
Lemma sorted_NoDup (l : list nat) : StronglySorted lt l -> NoDup l.
Proof. induction 1 as [|x l Hl IH Hx]; constructor; [|exact IH]. intros Hin. rewrite Forall_forall in Hx. specialize (Hx x Hin). lia. Qed.

(** ** The files *)
Lemma input_okA {V} (dflt : V) ofInt ltV stdsort itmax f t : sort_contract ltV stdsort -> (intmax <= Z.of_nat itmax)%Z -> mm_wf f -> mm_symm f <> SymSkew -> values_integral f ->
  (mm_symm f = SymYes -> mm_rows f = mm_cols f) -> NoDup (epos <$> means f) -> file_text f t ->
  exists X T, (forall r, inputA dflt ofInt stdsort itmax (Some t) r <-> r = Ok (X, T)) /\ wf_csc X /\ c_rows X = mm_rows f /\ c_cols X = mm_cols f /\ sorted_cols X /\
    wf T /\ rows T = mm_rows f /\ cols T = mm_cols f /\ sorted_rows T /\ same_matrix T X /\ conv ofInt <$> means f ≡ₚ triples T /\ conv ofInt <$> means f ≡ₚ triples_csc X /\
    (N.of_nat (nnz T) < 2 ^ 31)%N.
Proof.
  intros Hs Hi Hwf Hsk Hint Hsq Hn Ht.
  destruct (C53_read_csc_partial V ofInt ltV dflt stdsort Hs (Z.of_nat itmax) f t Hi Hwf Hsk Hint Hsq Ht) as (X & HX & HwX & HrX & HcX & HtX & HsX).
  destruct (C31_conversion V dflt X HwX) as (T & ET & HwT & Hsm & _ & HtT & Hrow). pose proof Hsm as [E1 E2 _].
  assert (HP : conv ofInt <$> means f ≡ₚ triples T) by (rewrite HtT, HtX; reflexivity).
  assert (HN : NoDup (fst <$> triples T)) by (rewrite <- HP, <- list_fmap_compose; exact Hn).
  destruct (C33_sorted_flag V T HwT) as (r1 & F1 & _). destruct (C33_sorted_flag V (csc_tr X) HwX) as (r2 & F2 & _). cbn [csc_tr rows rowptr colids] in F2.
  exists X, T. split.
  { intros r. unfold inputA. split.
    - intros (rX & HrX' & ->). apply HX in HrX'. subst rX. cbn [bind]. rewrite ET. cbn [bind]. rewrite F1. cbn [bind]. rewrite F2. reflexivity.
    - intros ->. exists (Ok X). split; [apply HX; reflexivity|]. cbn [bind]. rewrite ET. cbn [bind]. rewrite F1. cbn [bind]. rewrite F2. reflexivity. }
  split; [exact HwX|]. split; [exact HrX|]. split; [exact HcX|]. split.
  { intros j Hj. apply strict_of_le; [apply HsX, Hj|]. apply cols_nodup; [|exact Hj]. rewrite HtX, <- list_fmap_compose. exact Hn. }
  split; [exact HwT|]. split; [congruence|]. split; [congruence|]. split.
  { intros i Hi'. apply strict_of_le; [apply Hrow, Hi'|]. apply rowsV_NoDup_inv; [exact HN|exact Hi']. }
  split; [exact Hsm|]. split; [exact HP|]. split; [symmetry; exact HtX|].
  destruct Hwf as (_ & _ & _ & _ & H2 & _). pose proof (means_length f) as Hm. rewrite <- (triplesV_length T HwT), fmap_length, <- (Permutation_length HP), fmap_length. unfold intmax in *. lia.
Qed.

(** ** Calls *)
Section Calls.
Context {V : Type} (dflt zero : V) (mul add : V -> V -> V) (ofInt : Z -> V) (itmax t : nat).
Context (A B M : csr V) (Bc : csc V) (EA EB EM : list (nat * nat * Z)).
Context (Hco : compatible A B M) (HBc : wf_csc Bc) (Hsm : same_matrix B Bc) (HsA : sorted_rows A) (HsB : sorted_rows B) (HsM : sorted_rows M) (HsBc : sorted_cols Bc).
Context (PA : conv ofInt <$> EA ≡ₚ triples A) (PB : conv ofInt <$> EB ≡ₚ triples B) (PBc : conv ofInt <$> EB ≡ₚ triples_csc Bc) (PM : conv ofInt <$> EM ≡ₚ triples M).
Context (Hr : 1 <= rows A) (HN : (N.of_nat (rows A + 1) < 2 ^ 17)%N) (Hcb : (N.of_nat (cols B) < 2 ^ 24)%N) (Ht : 1 <= t) (Htn : (N.of_nat t < 2 ^ 30)%N).
Context (Hit : (intmax <= Z.of_nat itmax)%Z) (HW : length (meeting EA EB) + t <= itmax + 1) (Hnm : (N.of_nat (nnz M) < 2 ^ 31)%N).
Local Notation ANS := (answerA zero mul add ofInt EA EB EM (rows A) (cols B)).
Local Notation PR i j := (products mul (row_entries A i) (row_entries B) j).

Lemma mask_file i j : i < rows A /\ j ∈ row_cols M i <-> (i, j) ∈ epos <$> EM.
Proof.
  rewrite <- (co_rows A B M Hco), <- triplesV_pos, <- PM, <- list_fmap_compose. reflexivity.
Qed.
Lemma PR_file i j : i < rows A -> PR i j <> [] <-> (i, j) ∈ step_pos <$> meeting EA EB.
Proof.
  intros Hi. rewrite <- (products_some mul ofInt EA EB i j). pose proof (products_file mul ofInt A B EA EB (co_A _ _ _ Hco) (co_inner _ _ _ Hco) PA PB i j Hi) as P.
  split; intros H E; apply H; rewrite E in P; [symmetry in P|]; apply Permutation_nil_r in P || apply Permutation_nil in P; exact P.
Qed.
Lemma mkAnswer srt z (R : csr V) : wf R -> rows R = rows A -> cols R = cols B ->
  (forall i, i < rows A -> NoDup (row_cols R i)) -> (srt = true -> sorted_rows R) ->
  (forall i j, i < rows A -> j ∈ row_cols R i <-> j ∈ row_cols M i /\ PR i j <> []) ->
  (forall i j v, i < rows A -> (j, v) ∈ row_entries R i -> sums add ((if z : bool then [zero] else []) ++ PR i j) v) -> ANS srt z R.
Proof.
  intros H1 H2 H3 H4 H5 H6 H7. split; [exact H1|]. split; [exact H2|]. split; [exact H3|]. split; [|split].
  - intros i Hi. split; [apply H4, Hi|]. intros E. apply H5; [exact E|]. rewrite H2. exact Hi.
  - intros i j. split.
    + intros [Hi Hj]. apply H6 in Hj as [K1 K2]; [|exact Hi]. split; [apply mask_file; auto|apply PR_file; auto].
    + intros [K1 K2]. apply mask_file in K1 as [Hi K1]. split; [exact Hi|]. apply H6; [exact Hi|]. split; [exact K1|]. apply PR_file; auto.
  - intros i j v Hi Hv. eapply sums_perm; [apply H7; [exact Hi|exact Hv]|]. apply Permutation_app_head. apply products_file; [apply Hco|apply Hco|exact PA|exact PB|exact Hi].
Qed.
Lemma answer_shape srt z R : ANS srt z R -> RunSpec.shape R /\ rows R <> 0.
Proof using Hr. clear -Hr. intros (HwR & E & _). split; [|lia]. split; [apply (wf_len R HwR)|]. split; [apply (wf_colids R HwR)|apply (wf_values R HwR)]. Qed.
Lemma answer_count srt z R : ANS srt z R -> masked_count EA EB EM (nnz R).
Proof using Type.
  clear. intros (HwR & E & _ & Hn & Hk & _). exists (fst <$> triples R). split; [apply rowsV_NoDup; intros i Hi; apply Hn; lia|]. split; [|apply triplesV_length, HwR].
  intros [i j]. rewrite triplesV_pos, E. apply Hk.
Qed.
Lemma count_unique c c' : masked_count EA EB EM c -> masked_count EA EB EM c' -> c = c'.
Proof.
  intros (P & N1 & E1 & <-) (P' & N2 & E2 & <-). apply Permutation_length, NoDup_Permutation; [exact N1|exact N2|]. intros x. rewrite E1, E2. reflexivity.
Qed.

Lemma prods_sum : sum_list ((fun i => length (touched_cols A B i)) <$> seq 0 (rows A)) = length (meeting EA EB).
Proof.
  rewrite <- (mult_file ofInt (triples A) (triples B) EA EB PA PB), (mult_pairs_nprods A B (co_A _ _ _ Hco) (co_B _ _ _ Hco) (co_inner _ _ _ Hco)).
  f_equal. apply list_fmap_ext. intros _ i _. symmetry. apply nprods_touched.
Qed.
Lemma mask_len i : i < rows A -> length (row_cols M i) <= cols B.
Proof.
  intros Hi. rewrite <- (co_cols A B M Hco), <- (seq_length (cols M) 0). apply submseteq_length, NoDup_submseteq; [apply sorted_NoDup, HsM; rewrite (co_rows A B M Hco); exact Hi|].
  intros c Hc. apply elem_of_seq. pose proof (row_cols_range M i c (co_M _ _ _ Hco) Hc). lia.
Qed.

Lemma ends_unique {X} (P : X -> Prop) (ends : X -> csr V -> Prop) (Q : csr V -> Prop) : (exists p, P p) -> (forall p, P p -> exists C, ends p C /\ (forall C', ends p C' -> C' = C) /\ Q C) ->
  (exists R, endsAny P ends R) /\ forall R, endsAny P ends R -> Q R.
Proof.
  intros [p0 Hp0] H. split.
  - destruct (H p0 Hp0) as (C & HC & _). exists C. split; [intros p Hp; destruct (H p Hp) as (C' & HC' & _); eauto|eauto].
  - intros R (_ & p & Hp & HR). destruct (H p Hp) as (C & _ & Hu & HQ). rewrite (Hu R HR). exact HQ.
Qed.

Lemma call_spa : (exists R, allSpa dflt mul add itmax A B M t R) /\ forall R, allSpa dflt mul add itmax A B M t R -> ANS false false R.
Proof.
  apply ends_unique; [exists 0; exact I|]. intros nts _. unfold intmax in Hit.
  destruct (C44_spa_partial V dflt mul add (itmax + 1) (2 * itmax + 1) nts t A B M Hco ltac:(lia) Ht HN) as (C & HC & Hu & HwC & E1 & E2 & Hrow).
  { rewrite prods_sum. exact HW. }
  { lia. }
  { intros i Hi. lia. }
  exists C. split; [exact HC|]. split; [exact Hu|]. apply mkAnswer; [exact HwC|exact E1|exact E2|intros i Hi; apply Hrow, Hi|discriminate| |].
  - intros i j Hi. destruct (Hrow i Hi) as (_ & _ & K & _). rewrite <- (sum1_some (fun s x => add x s)). unfold row_cols at 1. rewrite elem_of_list_fmap. split.
    + intros ([j' v] & -> & Hv). apply K in Hv as [K1 K2]. split; [exact K1|]. eexists. exact K2.
    + intros [K1 [v K2]]. exists (j, v). split; [reflexivity|]. apply K. auto.
  - intros i j v Hi Hv. destruct (Hrow i Hi) as (_ & _ & K & _). apply K in Hv as [_ K2]. apply sum1_sums_l, K2.
Qed.
Lemma masked_answer C : holds_masked_product mul add A B M C -> ANS false false C.
Proof.
  intros (HwC & E1 & E2 & Hrow). apply mkAnswer; [exact HwC|exact E1|exact E2|intros i Hi; apply Hrow, Hi|discriminate| |].
  - intros i j Hi. destruct (Hrow i Hi) as (_ & K & _). rewrite <- (sum1_some add). unfold row_cols at 1. rewrite elem_of_list_fmap. split.
    + intros ([j' v] & -> & Hv). apply K in Hv as [K1 K2]. split; [exact K1|]. eexists. exact K2.
    + intros [K1 [v K2]]. exists (j, v). split; [reflexivity|]. apply K. auto.
  - intros i j v Hi Hv. destruct (Hrow i Hi) as (_ & K & _). apply K in Hv as [_ K2]. apply sum1_sums, K2.
Qed.
Lemma call_hash : (exists R, allHash dflt mul add itmax A B M t R) /\ forall R, allHash dflt mul add itmax A B M t R -> ANS false false R.
Proof.
  apply ends_unique; [exists 0; exact I|]. intros nts _. unfold intmax in Hit.
  destruct (C45_bin_partial V dflt mul add 32 (itmax + 1) (2 * itmax + 1) nts t A B M Hco ltac:(lia) Ht HN) as (C & HQ & HC & Hu).
  { lia. }
  { intros i Hi. pose proof (mask_len i Hi). lia. }
  { rewrite prods_sum. exact HW. }
  { intros i Hi. lia. }
  exists C. split; [exact HC|]. split; [exact Hu|]. apply masked_answer, HQ.
Qed.
Lemma call_wobin : (exists R, allWobin dflt mul add itmax A B M R) /\ forall R, allWobin dflt mul add itmax A B M R -> ANS false false R.
Proof.
  unfold intmax in Hit. destruct (C45_wobin_partial V dflt mul add 32 (itmax + 1) A B M Hco HN) as (C & HQ & HC).
  { lia. }
  { intros i Hi. pose proof (mask_len i Hi). lia. }
  apply ends_unique.
  - exists (0, [seq 0 (rows A)], [seq 0 (rows A)]). cbn [fst snd]. unfold schedule. simpl. rewrite app_nil_r. auto.
  - intros [[nts a1] a2] [H1 H2]. cbn [fst snd] in *. destruct (HC (2 * itmax + 1) nts a1 a2 H1 H2) as [K1 K2]. exists C. split; [exact K1|]. split; [exact K2|]. apply masked_answer, HQ.
Qed.

(** innerSpGEMM_nohash *)
Context (Hcol : forall e, e ∈ EA -> snd (epos e) < cols B) (HW2 : length (same_column EA EB) + t <= itmax + 1).
Lemma col_count k : k < cols B -> length (filter (fun u => snd (fst u) = k) (triples_csc Bc)) = length (col_entries Bc k).
Proof.
  intros Hk. unfold triples_csc. rewrite filter_mjoin, <- list_fmap_compose. unfold compose.
  rewrite (pick_block (fun x => filter (fun u => snd (fst u) = k) ((fun e => (fst e, x, snd e)) <$> col_entries Bc x)) k); [|rewrite <- (sm_cols _ _ Hsm); exact Hk|].
  - rewrite filter_fmap_in, fmap_length. f_equal. induction (col_entries Bc k) as [|e l IH]; [reflexivity|]; rewrite filter_cons_True by reflexivity; rewrite IH; reflexivity.
  - intros i' Hne. rewrite filter_fmap_in. induction (col_entries Bc i') as [|e l IH]; [reflexivity|]. rewrite filter_cons_False by (cbn; congruence). exact IH.
Qed.
Lemma bin_sum : sum_list (bin_work A Bc <$> seq 0 (rows A)) = length (same_column EA EB).
Proof.
  transitivity (sum_list ((fun e => length (filter (fun u => snd (fst u) = snd (fst e)) (triples_csc Bc))) <$> triples A)).
  - unfold triples. rewrite sum_mjoin. apply sum_ext. intros i Hi. apply elem_of_seq in Hi. unfold bin_work, row_cols. rewrite <- !list_fmap_compose. apply sum_ext. intros [k v] Hk. unfold compose. cbn [fst snd].
    symmetry. apply col_count. assert (Hin : (i, k) ∈ fst <$> triples A) by (apply triplesV_pos; split; [lia|]; apply elem_of_list_fmap; exists (k, v); auto).
    rewrite <- PA, <- list_fmap_compose in Hin. apply elem_of_list_fmap in Hin as (e & Ee & Hin). specialize (Hcol e Hin). unfold epos in Hcol. unfold compose, conv in Ee. cbn [fst] in Ee. rewrite <- Ee in Hcol. exact Hcol.
  - rewrite <- PA, <- list_fmap_compose. unfold same_column. transitivity (sum_list ((fun e : nat * nat * Z => length (filter (fun u : nat * nat * Z => snd (fst u) = snd (fst e)) EB)) <$> EA)).
    + apply sum_ext. intros e _. unfold compose, conv. cbn [fst snd]. rewrite <- PBc, filter_fmap_in, fmap_length. reflexivity.
    + clear. induction EA as [|e l IH]; [reflexivity|]. rewrite fmap_cons. cbn [sum_list list_prod]. rewrite filter_app, app_length, <- IH. change (map (fun y => (e, y)) EB) with ((fun y => (e, y)) <$> EB). cbn [sum_list]. simpl. f_equal.
      rewrite filter_fmap_in, fmap_length. f_equal. apply list_filter_iff. intros u. cbn [fst snd]. split; congruence.
Qed.
Lemma call_nohash : (exists R, allNohash dflt zero mul add itmax A M Bc t 0 R) /\ forall R, allNohash dflt zero mul add itmax A M Bc t 0 R -> ANS true true R.
Proof.
  apply ends_unique; [exists 0; exact I|]. intros nts _. unfold intmax in Hit.
  destruct (C47_nohash_partial V dflt zero mul add (itmax + 1) (2 * itmax + 1) nts t 8 A B M Bc Hco HBc Hsm HsA ltac:(intros i Hi; apply sorted_NoDup, HsB, Hi) HsBc ltac:(lia) Ht HN) as (C & HC & Hu & HwC & E1 & E2 & Hrow & _).
  { lia. }
  { lia. }
  { intros p k Hp. assert (Hk : exists i, i < rows A /\ k ∈ row_cols A i).
    { assert (Hpn : p < nnz A) by (rewrite <- (wf_colids A (co_A _ _ _ Hco)); eapply lookup_lt_Some; eauto).
      destruct (TransFill.entry_of A (co_A _ _ _ Hco) p Hpn) as (i & q & c & v & Hi & -> & Hq). exists i. split; [exact Hi|]. apply elem_of_list_fmap. exists (c, v).
      assert (c = k); [|subst c; split; [reflexivity|eapply elem_of_list_lookup_2; eauto]].
      unfold row_entries in Hq. destruct (rowptr A !! i) as [b|] eqn:Hb; [|discriminate]. destruct (rowptr A !! (i + 1)) as [e|] eqn:He; [|discriminate].
      apply lookup_take_Some in Hq as [Hq Hlt]. rewrite lookup_drop in Hq. apply lookup_zip_with_Some in Hq as (x & y & [= -> ->] & Hx & _).
      destruct (TransProofs.row_ptrs A (co_A _ _ _ Hco) i Hi) as [Hb' _]. rewrite Hb in Hb'. injection Hb' as Hb'. rewrite <- Hb' in Hp. congruence. }
    destruct Hk as (i & Hi & Hk). assert (Hin : (i, k) ∈ fst <$> triples A) by (apply triplesV_pos; auto). rewrite <- PA, <- list_fmap_compose in Hin.
    apply elem_of_list_fmap in Hin as (e & Ee & Hin). specialize (Hcol e Hin). unfold epos in Hcol. unfold compose, conv in Ee. cbn [fst] in Ee. rewrite <- Ee in Hcol. exact Hcol. }
  { rewrite bin_sum. exact HW2. }
  { intros i Hi. lia. }
  exists C. split; [exact HC|]. split; [exact Hu|].
  assert (HsC : sorted_rows C).
  { intros i Hi. rewrite E1 in Hi. unfold row_cols at 1. rewrite (Hrow i Hi). apply omap_sorted; [|apply HsM; rewrite (co_rows A B M Hco); exact Hi]. intros j e. destruct (PR i j); [discriminate|]. intros [= <-]. reflexivity. }
  apply mkAnswer; [exact HwC|exact E1|exact E2|intros i Hi; apply sorted_NoDup, HsC; lia|intros _; exact HsC| |].
  - intros i j Hi. unfold row_cols at 1. rewrite (Hrow i Hi), elem_of_list_fmap. split.
    + intros ([j' v] & -> & Hv). apply elem_of_list_omap in Hv as (k & Hk & E). destruct (PR i k) eqn:EP; [discriminate|]. injection E as <- _. cbn [fst]. rewrite EP. split; [exact Hk|discriminate].
    + intros [K1 K2]. destruct (PR i j) as [|x l] eqn:EP; [contradiction|]. exists (j, fold_left add (x :: l) zero). split; [reflexivity|]. apply elem_of_list_omap. exists j. rewrite EP. auto.
  - intros i j v Hi Hv. rewrite (Hrow i Hi) in Hv. apply elem_of_list_omap in Hv as (k & Hk & E). destruct (PR i k) as [|x l] eqn:EP; [discriminate|]. injection E as -> <-. rewrite EP.
    apply (fold_sums_r add (x :: l) [zero]). constructor.
Qed.

(** HeapSpGEMM *)
Lemma heap_unique alg (Q : csr V -> Prop) C : yieldsH alg A B M C -> Q C ->
  (exists R, allHeap itmax A B M t alg R) /\ forall R, allHeap itmax A B M t alg R -> Q R.
Proof.
  intros HY HQ. assert (Hn : forall nts : nat, nts <= rows A \/ (N.of_nat (rows A) < 2 ^ 17)%N) by (intros; right; lia). split.
  - exists C. intros nts iA iB iM iC C0 s Hnts H1 H2 H3 H4 H5 H6 H7. eapply HY; eauto.
  - intros R HR. set (s := <[0 := DriverModel.OMat A]> (<[1 := DriverModel.OMat B]> (<[2 := DriverModel.OMat M]> (<[3 := DriverModel.OMat A]> (∅ : gmap nat (DriverModel.obj V)))))).
    specialize (HR 1 0 1 2 3 A s ltac:(lia) eq_refl eq_refl eq_refl eq_refl ltac:(lia) ltac:(lia) ltac:(lia)).
    destruct (HY (2 * itmax + 1) 1 t 0 1 2 3 A s Ht ltac:(lia) (Hn 1) eq_refl eq_refl eq_refl eq_refl ltac:(lia) ltac:(lia) ltac:(lia)) as [_ Hu].
    specialize (Hu _ HR). apply (f_equal (fun s => s !! 3)) in Hu. rewrite !lookup_insert in Hu. injection Hu as ->. exact HQ.
Qed.
Lemma spec_keys i j : i < rows A -> j ∈ fst <$> spec_row mul add A B M i <-> j ∈ row_cols M i /\ PR i j <> [].
Proof.
  intros Hi. unfold spec_row. rewrite elem_of_list_fmap, <- (sum1_some add). split.
  - intros ([j' v] & -> & Hv). apply masked_row_elem in Hv as [K1 K2]. split; [exact K1|]. exists v. exact K2.
  - intros [K1 [v K2]]. exists (j, v). split; [reflexivity|]. apply masked_row_elem. auto.
Qed.
Lemma spec_sorted i : i < rows A -> StronglySorted lt (fst <$> spec_row mul add A B M i).
Proof.
  intros Hi. unfold spec_row, masked_row. apply omap_sorted; [|apply HsM; rewrite (co_rows A B M Hco); exact Hi]. intros j e. destruct (entry _ _ _ _ _); [intros [= <-]; reflexivity|discriminate].
Qed.
Lemma call_heap insp : (insp <= 1)%N \/ (insp = 2 ^ 64 - 1)%N -> 
  (exists R, allHeap itmax A B M t (maskedHeapAlg mul add insp) R) /\ forall R, allHeap itmax A B M t (maskedHeapAlg mul add insp) R -> ANS true false R.
Proof.
  intros Hi. destruct (C48_masked_heap_partial V mul add insp A B M Hco HsB HsM Hr) as (C & HY & (HwC & E1 & E2 & Hrow) & _).
  { destruct Hi as [Hi|Hi]; [left; exact Hi|right; split; [exact Hi|]]. lia. }
  apply (heap_unique _ _ C HY). assert (HsC : sorted_rows C) by (intros i Hi'; rewrite E1 in Hi'; unfold row_cols; rewrite (proj1 (Hrow i Hi')); apply spec_sorted, Hi').
  apply mkAnswer; [exact HwC|exact E1|exact E2|intros i Hi'; apply sorted_NoDup, HsC; lia|intros _; exact HsC| |].
  - intros i j Hi'. unfold row_cols at 1. rewrite (proj1 (Hrow i Hi')). apply spec_keys, Hi'.
  - intros i j v Hi' Hv. destruct (proj2 (Hrow i Hi') j v Hv) as (ord & HP & Ho). destruct ord as [|x xs]; [contradiction|]. subst v. eapply sums_perm; [|exact HP].
    apply (fold_sums_l add xs [x]). constructor.
Qed.
(** MCA *)
Context (HAB : EA ≡ₚ EB) (Hrows : rows A = rows B) (Hcols : cols A = cols B)
  (Huse : forall e, e ∈ EA -> exists u, u ∈ EA /\ fst (epos u) = snd (epos e))
  (Hroom : forall i, products_in EA EB i = 0 \/ 1 <= entries_in EM i <= products_in EA EB i).
Lemma same_AB : A = B.
Proof.
  apply wf_ext; [apply Hco|apply Hco|exact Hrows|exact Hcols|]. intros i Hi.
  assert (Hel : forall x, x ∈ row_entries A i <-> x ∈ row_entries B i).
  { intros [j v]. assert (T1 := triplesV_elem A i j v). assert (T2 := triplesV_elem B i j v). rewrite <- PA in T1. rewrite <- PB, <- HAB in T2. assert (i < rows B) by lia. tauto. }
  assert (E : row_cols A i = row_cols B i).
  { apply HeapStatements.sorted_lt_unique; [apply HsA, Hi|apply HsB; lia|]. intros j. unfold row_cols. rewrite !elem_of_list_fmap. split; intros (x & Ex & Hx); exists x; (split; [exact Ex|]); apply Hel, Hx. }
  apply keys_values; [apply sorted_NoDup, HsB; lia|exact E|]. intros x. apply Hel.
Qed.
Lemma mask_row_len i : i < rows A -> length (row_cols M i) = entries_in EM i.
Proof.
  intros Hi. unfold row_cols, entries_in. rewrite fmap_length. rewrite <- (fmap_length (fun e => (i, fst e, snd e))), <- triplesV_row by (rewrite (co_rows A B M Hco); exact Hi).
  rewrite <- PM, filter_fmap_in, fmap_length. reflexivity.
Qed.
Lemma call_mca v : (exists R, allHeap itmax A B M t (mcaAlgG mul add v) R) /\ forall R, allHeap itmax A B M t (mcaAlgG mul add v) R -> ANS true false R.
Proof.
  pose proof (co_A _ _ _ Hco) as HA. pose proof (co_inner _ _ _ Hco) as Hin.
  destruct (C48_mca_partial V mul add v A B M Hco HsB HsM Hr) as (C & HY & (HwC & E1 & E2 & Hrow)).
  - intros _ i k bb Hi Hk Hb. rewrite <- same_AB in *. assert (HkA : k < rows A) by (rewrite <- Hin; eapply row_cols_range; eassumption).
    assert (Hne : row_cols A k <> []).
    { assert (Hik : (i, k) ∈ fst <$> triples A) by (apply triplesV_pos; auto). rewrite <- PA, <- list_fmap_compose in Hik. apply elem_of_list_fmap in Hik as (e & Ee & Hik). unfold compose, conv in Ee. cbn [fst] in Ee.
      destruct (Huse e Hik) as (u & Hu & Eu). intros E. assert (Hu' : epos u ∈ fst <$> triples A) by (rewrite <- PA, <- list_fmap_compose; apply elem_of_list_fmap; exists u; auto).
      destruct (epos u) as [r c] eqn:Ep. apply triplesV_pos in Hu' as [_ Hu']. cbn [fst] in Eu. unfold epos in Eu. rewrite <- Ee in Eu. cbn [snd] in Eu. subst r. rewrite E in Hu'. inversion Hu'. }
    destruct (row_bounds_wf A k HA HkA) as (b & e & Hb' & He & Hle & Hn & _). rewrite Hb in Hb'. injection Hb' as <-.
    pose proof (row_entries_length A k bb e HA HkA Hb He) as Hl. rewrite <- row_cols_length in Hl.
    assert (e - bb <> 0) by (rewrite <- Hl; intros E; apply length_zero_iff_nil in E; contradiction).
    destruct (colids A !! bb) as [key|] eqn:E; [exists key; auto|]. apply lookup_ge_None in E. rewrite (wf_colids _ HA) in E. lia.
  - intros _ i Hi E. rewrite (nprods_file ofInt A B EA EB HA Hin PA PB i Hi). destruct (Hroom i) as [K|K]; [exact K|]. rewrite <- (mask_row_len i Hi), E in K. simpl in K. lia.
  - intros i p c Hi Hp Hc. rewrite (nprods_file ofInt A B EA EB HA Hin PA PB i Hi). destruct (Hroom i) as [K|K].
    + exfalso. apply PR_file in Hc; [|exact Hi]. apply elem_of_list_fmap in Hc as (q & Eq & Hq). apply length_zero_iff_nil in K.
      assert (Hq' : q ∈ filter (fun p => fst (epos (fst p)) = i) (meeting EA EB)) by (apply elem_of_list_filter; split; [unfold step_pos in Eq; unfold epos; congruence|exact Hq]). rewrite K in Hq'. inversion Hq'.
    + apply lookup_lt_Some in Hp. rewrite (mask_row_len i Hi) in Hp. lia.
  - apply (heap_unique _ _ C HY). assert (HsC : sorted_rows C) by (intros i Hi'; rewrite E1 in Hi'; unfold row_cols; rewrite (Hrow i Hi'); apply spec_sorted, Hi').
    apply mkAnswer; [exact HwC|exact E1|exact E2|intros i Hi'; apply sorted_NoDup, HsC; lia|intros _; exact HsC| |].
    + intros i j Hi'. unfold row_cols at 1. rewrite (Hrow i Hi'). apply spec_keys, Hi'.
    + intros i j w Hi' Hv. rewrite (Hrow i Hi') in Hv. apply masked_row_elem in Hv as [_ K2]. apply sum1_sums, K2.
Qed.
End Calls.
