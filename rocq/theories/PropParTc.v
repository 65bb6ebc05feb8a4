(** C78: all_parallel_tc from the text of the file to the printed lines. *)
From Coq Require Import NArith ZArith Ascii String.
From stdpp Require Import numbers list_numbers gmap sorting.
From Verif Require Import BaseProofs WorkModel WorkProofs Assemble MatSpec MatStatements ConvProofs PropReport IoSpec IoModel PropIo PropMat MatModel DriverModel
  HeapImplStuck ObjModel ObjSpec PropMaskHash MainSpec MainCalls RunSpec RunProofs AllMainModel AllMainSpec AllMainLoops AllMainProofs AllMainCalls.
From Verif Require Import Examples IoModel TriMainSpec PropTriMain PropAllMain ParTcModel ParTcProofs.
From Verif Require Import Base Spec.
Local Open Scope nat_scope.

Lemma asInt_small n : (N.of_nat n < 2 ^ 31)%N -> asInt n = Z.of_nat n.
Proof.
  intros H. unfold asInt. assert (Z.of_nat n < 2 ^ 31)%Z by lia. rewrite Z.mod_small by lia. destruct (Z.ltb_spec (Z.of_nat n) (2 ^ 31)); lia.
Qed.
Lemma count_bound EA EB EM c : masked_count EA EB EM c -> c <= length EM.
Proof.
  intros (P & HN & HP & <-). rewrite <- (fmap_length epos EM). apply submseteq_length, NoDup_submseteq; [exact HN|]. intros x Hx. apply HP, Hx.
Qed.

Section Square.
Context {V : Type} (dflt zero : V) (mul add : V -> V -> V) (ofInt : Z -> V) (pick : gmap nat (ablock V) -> nat) (null0 : bool) (itmax t : nat).
Context (pick_fresh : forall h, h !! pick h = None).
Context (A : csr V) (X : csc V) (E : list (nat * nat * Z)).
Context (Hco : compatible A A A) (HX : wf_csc X) (Hsm : same_matrix A X) (HsA : sorted_rows A) (HsX : sorted_cols X).
Context (PA : conv ofInt <$> E ≡ₚ triples A) (PX : conv ofInt <$> E ≡ₚ triples_csc X).
Context (Hr : 1 <= rows A) (HN : (N.of_nat (rows A + 1) < 2 ^ 17)%N) (Hcb : (N.of_nat (cols A) < 2 ^ 24)%N) (Ht : 1 <= t) (Htn : (N.of_nat t < 2 ^ 30)%N).
Context (Hit : (intmax <= Z.of_nat itmax)%Z) (HW : length (meeting E E) + t <= itmax + 1) (Hnm : (N.of_nat (nnz A) < 2 ^ 31)%N).
Context (Hcol : forall e, e ∈ E -> snd (epos e) < cols A) (HW2 : length (same_column E E) + t <= itmax + 1).
Context (c : nat) (Hcnt : masked_count E E E c).
Local Notation heap := (gmap nat (ablock V)).

Lemma call_hash64 : (exists R, parHash dflt mul add itmax A A A t R) /\ forall R, parHash dflt mul add itmax A A A t R -> answerA zero mul add ofInt E E E (rows A) (cols A) false false R.
Proof.
  apply ends_unique; [exists 0; exact I|]. intros nts _. unfold intmax in Hit.
  destruct (C45_bin_partial V dflt mul add 64 (itmax + 1) (2 * itmax + 1) nts t A A A Hco ltac:(lia) Ht HN) as (C & HQ & HC & Hu).
  { lia. }
  { intros i Hi. assert (length (row_cols A i) <= cols A); [|lia]. exact (mask_len zero mul add itmax t A A A E E Hco HsA Hr HN Hcb Ht Htn HW Hnm i Hi). }
  { erewrite (prods_sum ofInt A A A); eassumption. }
  { intros i Hi. lia. }
  exists C. split; [exact HC|]. split; [exact Hu|]. eapply masked_answer; eassumption.
Qed.

Definition parOk (b : abench V) : Prop :=
  a_kind b <> KAssign /\ (exists R, a_prod b t 0 R) /\ forall R, a_prod b t 0 R -> exists srt z, answerA zero mul add ofInt E E E (rows A) (cols A) srt z R.
Lemma benches_ok : Forall parOk (parBenches dflt zero mul add itmax A X).
Proof.
  repeat (apply Forall_cons; split); [..|apply Forall_nil; exact Logic.I].
  - split; [discriminate|]. cbn [a_prod]. edestruct (call_spa dflt zero mul add ofInt itmax t A A A E E E) as [H1 H2]; try eassumption. eauto.
  - split; [discriminate|]. cbn [a_prod]. edestruct (call_nohash dflt zero mul add ofInt itmax t A A A X E E E) as [H1 H2]; try eassumption. eauto.
  - split; [discriminate|]. cbn [a_prod]. destruct call_hash64 as [H1 H2]. eauto.
Qed.
Definition costP (b : abench V) : nat := 5 * (lost_result null0 (c =? 0) + lost_local null0 (a_kind b) t).
Lemma seq_ok bs h : Forall parOk bs ->
  (exists r, seqA (parOne dflt pick null0 t) bs h r) /\
  forall r, seqA (parOne dflt pick null0 t) bs h r -> exists h', r = Ok (h', (fun b => mkPLine (a_label b) (Z.of_nat c) t) <$> bs) /\ h ⊆ h' /\ size h' = size h + sum_list (costP <$> bs).
Proof.
  intros HF. destruct (seqA_ok (parOne dflt pick null0 t) (fun b ls => ls = [mkPLine (a_label b) (Z.of_nat c) t]) costP bs) with (h := h) as [Hex Hall].
  { intros b h' Hb. rewrite Forall_forall in HF. destruct (HF b Hb) as (K1 & K2 & K3).
    assert (Hres : forall R, a_prod b t 0 R -> nnz R = c /\ RunSpec.shape R /\ rows R <> 0).
    { intros R HR. destruct (K3 R HR) as (srt & z & HA). split; [apply (count_unique E E E); [eapply answer_count, HA|exact Hcnt]|]. eapply answer_shape; [exact Hr|exact HA]. }
    destruct (parOne_ok dflt pick null0 pick_fresh b t (c =? 0) K1 K2) with (h := h') as [O1 O2].
    { intros R HR. destruct (Hres R HR) as (<- & S1 & S2). auto. }
    split; [exact O1|]. intros r Hr'. destruct (O2 r Hr') as (h2 & R & -> & HR & Hsub & Hsz). destruct (Hres R HR) as (EN & _). exists h2. eexists. split; [reflexivity|]. split; [exact Hsub|]. split; [|exact Hsz].
    rewrite EN, asInt_small; [reflexivity|]. pose proof (count_bound _ _ _ _ Hcnt) as Hb'. assert (length E = nnz A); [|lia].
    rewrite <- (triplesV_length A (co_A _ _ _ Hco)), fmap_length, <- (Permutation_length PA), fmap_length. reflexivity. }
  split; [exact Hex|]. intros r Hr'. destruct (Hall r Hr') as (h' & lss & -> & K1 & K2 & K3). exists h'. split; [|auto]. f_equal. f_equal.
  clear -K2. induction K2 as [|b ls bs lss -> _ IH]; [reflexivity|]. rewrite mjoin_cons, fmap_cons, IH. reflexivity.
Qed.
Lemma cost_all : sum_list (costP <$> parBenches dflt zero mul add itmax A X) = if (c =? 0) && negb null0 then 5 * (if decide (E = []) then 8 else 6) else 0.
Proof.
  assert (EN : length E = nnz A) by (rewrite <- (triplesV_length A (co_A _ _ _ Hco)), fmap_length, <- (Permutation_length PA), fmap_length; reflexivity).
  assert (En : E = [] <-> nnz A = 0) by (rewrite <- EN; split; [intros ->; reflexivity|apply nil_length_inv]).
  pose proof (count_bound _ _ _ _ Hcnt) as Hb. rewrite EN in Hb. unfold parBenches, costP. cbn [fmap list_fmap sum_list sum_list_with a_kind lost_local lost_result].
  destruct (Nat.eqb_spec (rows A) 0) as [|_]; [lia|]. unfold lost_result.
  destruct (decide (E = [])) as [E0|E0]; rewrite En in E0; clear En EN; destruct (Nat.eqb_spec c 0) as [Ec|Ec], null0; cbn [andb negb]; destruct (Nat.eqb_spec (nnz A) 0); simpl; lia.
Qed.
End Square.

(** For every square file with integral values: the program ends with result 0.  It prints twice the number of multiplications and, for each of
    the three products, the number of positions of the matrix at which the square of the matrix has a product, and the number of threads.
    All memory is released, unless no position has a product and malloc(0) does not give NULL (finding).  Limits: rows + 1 < 2^17 (findings
    of C44, C45, C47); multiplications + threads and the pairs in the same column + threads at most 2^63. *)
Theorem C78_report_partial :
  forall V (dflt zero : V) (mul add : V -> V -> V) (ofInt : Z -> V) (pick : gmap nat (ablock V) -> nat) null0 ltV stdsort itmax f tf t (h : gmap nat (ablock V)),
  (forall h, h !! pick h = None) -> sort_contract ltV stdsort -> (intmax <= Z.of_nat itmax)%Z -> good_file f tf -> mm_cols f = mm_rows f ->
  1 <= mm_rows f -> (N.of_nat (mm_rows f + 1) < 2 ^ 17)%N -> 1 <= t -> (N.of_nat t < 2 ^ 30)%N ->
  let E := means f in
  length (meeting E E) + t <= itmax + 1 -> length (same_column E E) + t <= itmax + 1 ->
  let main := parMain dflt zero mul add ofInt pick null0 stdsort itmax (Some tf) (Some t) h in
  (exists r, main r) /\
  exists c, masked_count E E E c /\
  forall r, main r -> exists h', h ⊆ h' /\
    r = Ok (h', (0%Z, Some (2 * length (meeting E E)),
       [mkPLine (txt "MaskedSPASpGEMM") (Z.of_nat c) t; mkPLine (txt "DotSpGEMM") (Z.of_nat c) t; mkPLine (txt "mxm_hash_mask") (Z.of_nat c) t])) /\
    (c <> 0 \/ null0 = true -> h' = h) /\
    (c = 0 -> null0 = false -> size h' = size h + 5 * (if decide (E = []) then 8 else 6)).
Proof.
  intros V dflt zero mul add ofInt pick null0 ltV stdsort itmax f tf t h Hp Hsort Hit (W1 & W2 & W3 & W4 & W5 & W6) Hsq Hr HN Ht Htn E HW HW2 main.
  destruct (input_okA dflt ofInt ltV stdsort itmax f tf Hsort Hit W1 W2 W3 W4 W5 W6) as (X & A & IA & X1 & X2 & X3 & X4 & A1 & A2 & A3 & A4 & A5 & A6 & A7 & A8).
  fold E in A6, A7.
  assert (Hco : compatible A A A) by (constructor; auto; congruence).
  assert (Hcol : forall e, e ∈ E -> snd (epos e) < cols A).
  { intros [[i j] v] He. assert (Hin : (i, j, ofInt v) ∈ triples A) by (rewrite <- A6; apply elem_of_list_fmap; exists (i, j, v); auto).
    apply triplesV_elem in Hin as [Hi Hj]. cbn. eapply row_cols_range; [exact A1|]. apply elem_of_list_fmap. eexists. split; [|exact Hj]. reflexivity. }
  rewrite <- A2 in Hr, HN. assert (Hcb : (N.of_nat (cols A) < 2 ^ 24)%N) by (rewrite A3, Hsq, <- A2; lia).
  assert (Hcnt : exists c, masked_count E E E c).
  { exists (length (remove_dups (filter (fun x => x ∈ step_pos <$> meeting E E) (epos <$> E)))). eexists. split; [apply NoDup_remove_dups|]. split; [|reflexivity].
    intros x. rewrite elem_of_remove_dups, elem_of_list_filter. tauto. }
  destruct Hcnt as [c Hcnt].
  assert (Hfl : getFlopCsr A A = Ok (2 * length (meeting E E))).
  { rewrite (C58_flop_csr A A A1 A1 ltac:(congruence)). rewrite (mult_file ofInt (triples A) (triples A) E E A6 A6). reflexivity. }
  destruct (C33_sorted_flag V A A1) as (r1 & F1 & _). destruct (C33_sorted_flag V (csc_tr X) X1) as (r2 & F2 & _). cbn [csc_tr rows rowptr colids] in F2.
  pose proof (benches_ok dflt zero mul add ofInt itmax t A X E Hco X1 A5 A4 X4 A6 A7 Hr HN Hcb Ht Htn Hit HW A8 Hcol HW2) as HB.
  destruct (seq_ok dflt zero mul add ofInt pick null0 itmax t Hp A E Hco A6 Hr HN Hcb Ht Htn HW A8 HW2 c Hcnt _ h HB) as [[r0 Hr0] Hall].
  unfold main, parMain. split.
  - eexists. exists (Ok (X, A)). split; [apply IA; reflexivity|]. cbn [bind]. rewrite Hfl. cbn [bind]. rewrite F2. cbn [bind]. rewrite F1. cbn [bind]. exists r0. split; [exact Hr0|reflexivity].
  - exists c. split; [exact Hcnt|]. intros r (rA & HrA & Hm). apply IA in HrA. subst rA. cbn [bind] in Hm. rewrite Hfl in Hm. cbn [bind] in Hm. rewrite F2 in Hm. cbn [bind] in Hm. rewrite F1 in Hm. cbn [bind] in Hm.
    destruct Hm as (r1' & Hr1 & ->). destruct (Hall r1' Hr1) as (h' & -> & Hsub & Hsz). cbn [bind]. exists h'. split; [exact Hsub|]. split; [reflexivity|].
    rewrite (cost_all dflt zero mul add ofInt null0 itmax t A X E Hco A6 A7 Hr HN Hcb Ht Htn HW A8 Hcol HW2 c Hcnt) in Hsz. split.
    + intros Hc. assert (size h' = size h).
      { rewrite Hsz. destruct Hc as [Hc | ->]; [destruct (Nat.eqb_spec c 0); [contradiction|]; cbn [andb]; lia|rewrite andb_false_r; lia]. }
      symmetry. apply map_eq. intros i. destruct (h !! i) as [x|] eqn:Ei; [symmetry; eapply lookup_weaken; eauto|].
      destruct (h' !! i) as [y|] eqn:Ey; [|reflexivity]. exfalso. pose proof (subseteq_size (dom h ∪ {[i]}) (dom h') : _ -> _) as Hs. 
      rewrite size_union in Hs by (intros z Hz1 Hz2; apply elem_of_singleton in Hz2 as ->; apply elem_of_dom in Hz1 as [? Hz1]; congruence). rewrite size_singleton, !size_dom in Hs.
      assert (size h + 1 <= size h'); [|lia]. apply Hs. intros z Hz. apply elem_of_union in Hz as [Hz | Hz]; [apply (subseteq_dom _ _ Hsub), Hz|apply elem_of_singleton in Hz as ->; apply elem_of_dom; eauto].
    + intros -> ->. exact Hsz.
Qed.
Print Assumptions C78_report_partial.

(** Too few arguments: the result is -1, nothing is read or computed. *)
Theorem C78_usage : forall V (dflt zero : V) mul add ofInt pick null0 stdsort itmax file (h : gmap nat (ablock V)) r,
  parMain dflt zero mul add ofInt pick null0 stdsort itmax file None h r <-> r = Ok (h, ((-1)%Z, None, [])).
Proof. reflexivity. Qed.
Print Assumptions C78_usage.

(** Finding: the shape of the matrix is not checked.  A file with an entry in a column that is not also a row makes the count of the operations
    read past the end of rowptr; the program never gets to a result. *)
Theorem C78_wide_refuted :
  forall V (dflt zero : V) (mul add : V -> V -> V) (ofInt : Z -> V) (pick : gmap nat (ablock V) -> nat) null0 ltV stdsort itmax f tf t (h : gmap nat (ablock V)) e,
  sort_contract ltV stdsort -> (intmax <= Z.of_nat itmax)%Z -> good_file f tf -> e ∈ means f -> mm_rows f <= snd (epos e) ->
  let main := parMain dflt zero mul add ofInt pick null0 stdsort itmax (Some tf) (Some t) h in
  (exists x, main (Err x)) /\ forall y, ~ main (Ok y).
Proof.
  intros V dflt zero mul add ofInt pick null0 ltV stdsort itmax f tf t h e Hsort Hit (W1 & W2 & W3 & W4 & W5 & W6) He Hlt main.
  destruct (input_okA dflt ofInt ltV stdsort itmax f tf Hsort Hit W1 W2 W3 W4 W5 W6) as (X & A & IA & X1 & X2 & X3 & X4 & A1 & A2 & A3 & A4 & A5 & A6 & A7 & A8).
  assert (Hin : (fst (epos e), snd (epos e), ofInt (snd e)) ∈ triples A).
  { rewrite <- A6. apply elem_of_list_fmap. exists e. split; [|exact He]. destruct e as [[i j] v]. reflexivity. }
  apply triplesV_elem in Hin as [Hi Hj].
  assert (Hc : snd (epos e) ∈ row_cols A (fst (epos e))) by (apply elem_of_list_fmap; eexists; split; [|exact Hj]; reflexivity).
  destruct (entry_at A _ _ A1 Hi Hc) as (ab & ae & j & Hab & Hae & Hjr & Hcj).
  assert (Hfr : forall v, flopsRow A A (fst (epos e)) <> Ok v).
  { intros v. unfold flopsRow. destruct (row_bounds_wf A _ A1 Hi) as (b & e' & Hb & He' & Hle & Hen & Hrb). rewrite Hrb, bind_Ok. rewrite Hab in Hb. rewrite Hae in He'. injection Hb as <-. injection He' as <-.
    unfold for_. apply (for_stuck _ j); [|lia]. intros s s'. rewrite (get_Some _ _ _ Hcj), bind_Ok. unfold get at 1. rewrite lookup_ge_None_2; [discriminate|]. rewrite (wf_len A A1), A2. lia. }
  assert (Hfl : exists x, getFlopCsr A A = Err x).
  { unfold getFlopCsr. destruct (for_ 0 (rows A) _ 0) as [s|x] eqn:Ef; [|cbn [bind]; eauto]. exfalso. revert Ef. unfold for_ at 1. apply (for_stuck _ (fst (epos e))); [|lia].
    intros s0 s'. destruct (flopsRow A A (fst (epos e))) as [v|] eqn:Ev; [exact (fun _ => Hfr v eq_refl)|discriminate]. }
  destruct Hfl as [x Hfl]. unfold main, parMain. split.
  - exists x, (Ok (X, A)). split; [apply IA; reflexivity|]. cbn [bind]. rewrite Hfl. reflexivity.
  - intros y (rA & HrA & Hm). apply IA in HrA. subst rA. cbn [bind] in Hm. rewrite Hfl in Hm. discriminate.
Qed.
Print Assumptions C78_wide_refuted.

(** Finding: if no entry lies where the square has a product and malloc(0) does not give NULL, each of the fifteen calls loses the two arrays without
    length of its result.  The file has one entry at (1, 2) and one at (2, 1). *)
Definition exPath : mmfile := mkMM Integer SymYes [] 2 2 [(2, 1, 4%Z, [])].
Lemma exPath_good : good_file exPath (render exPath).
Proof.
  split; [|split; [discriminate|split; [repeat constructor|split; [reflexivity|split; [apply (bool_decide_unpack _); vm_compute; exact Logic.I|left; exists []; rewrite app_nil_r; reflexivity]]]]].
  unfold mm_wf. split; [apply Forall_nil; exact Logic.I|split; [|split; [|split; [|split]]]].
  - apply Forall_forall. intros l Hl. apply Nat.leb_le. revert l Hl. rewrite <- Forall_forall.
    cbn [exPath mm_entries mm_field fmap list_fmap]. repeat (apply Forall_cons; split; [vm_compute; reflexivity|]). apply Forall_nil; exact Logic.I.
  - vm_compute. discriminate.
  - vm_compute. discriminate.
  - vm_compute. discriminate.
  - cbn [exPath mm_entries mm_rows mm_cols]. repeat (apply Forall_cons; split; [split; [lia|split; [lia|split; [vm_compute; discriminate|left; reflexivity]]]|]). apply Forall_nil; exact Logic.I.
Qed.
Theorem C78_lost_refuted :
  forall V (dflt zero : V) (mul add : V -> V -> V) (ofInt : Z -> V) (pick : gmap nat (ablock V) -> nat) ltV stdsort itmax (h : gmap nat (ablock V)),
  (forall h, h !! pick h = None) -> sort_contract ltV stdsort -> (intmax <= Z.of_nat itmax)%Z ->
  let main := parMain dflt zero mul add ofInt pick false stdsort itmax (Some (render exPath)) (Some 3) h in
  (exists r, main r) /\ forall r, main r -> exists h' out, r = Ok (h', out) /\ size h' = size h + 30.
Proof.
  intros V dflt zero mul add ofInt pick ltV stdsort itmax h Hp Hs Hit main. assert (Hi : 100 <= itmax) by (unfold intmax in Hit; lia).
  assert (Em : length (meeting (means exPath) (means exPath)) = 2) by (vm_compute; reflexivity).
  assert (Es : length (same_column (means exPath) (means exPath)) = 2) by (vm_compute; reflexivity).
  destruct (C78_report_partial V dflt zero mul add ofInt pick false ltV stdsort itmax exPath (render exPath) 3 h Hp Hs Hit exPath_good eq_refl) as [Hex (c & Hc & Hall)];
    [cbn [exPath mm_rows]; lia|reflexivity|lia|reflexivity|rewrite Em; lia|rewrite Es; lia|]. split; [exact Hex|].
  assert (c = 0) as ->.
  { apply (count_unique (means exPath) (means exPath) (means exPath)); [exact Hc|]. exists []. split; [constructor|]. split; [|reflexivity]. intros x. split; [intros H; inversion H|]. intros [H1 H2].
    assert (F : Forall (fun x => x ∉ step_pos <$> meeting (means exPath) (means exPath)) (epos <$> means exPath)) by (apply (bool_decide_unpack _); vm_compute; exact Logic.I).
    rewrite Forall_forall in F. destruct (F x H1 H2). }
  intros r Hr. destruct (Hall r Hr) as (h' & _ & -> & _ & Hsz). exists h'. eexists. split; [reflexivity|]. rewrite (Hsz eq_refl eq_refl). reflexivity.
Qed.
Print Assumptions C78_lost_refuted.

(** The complete graph on four vertices with 7 threads: 36 multiplications, 12 positions, everything is released. *)
Example C78_example : forall pick null0 ltV stdsort itmax tf (h : gmap nat (ablock Z)),
  (forall h, h !! pick h = None) -> sort_contract ltV stdsort -> (intmax <= Z.of_nat itmax)%Z -> file_text PropTriMain.exFile tf ->
  let main := parMain 0%Z 0%Z Z.mul Z.add (fun x => x) pick null0 stdsort itmax (Some tf) (Some 7) h in
  (exists r, main r) /\ forall r, main r -> r = Ok (h, (0%Z, Some 72, [mkPLine (txt "MaskedSPASpGEMM") 12 7; mkPLine (txt "DotSpGEMM") 12 7; mkPLine (txt "mxm_hash_mask") 12 7])).
Proof.
  intros pick null0 ltV stdsort itmax tf h Hp Hs Hit HA main. assert (Hi : 100 <= itmax) by (unfold intmax in Hit; lia). set (F := PropTriMain.exFile) in *.
  assert (Em : length (meeting (means F) (means F)) = 36) by (vm_compute; reflexivity).
  assert (Es : length (same_column (means F) (means F)) = 36) by (vm_compute; reflexivity).
  destruct (C78_report_partial Z 0%Z 0%Z Z.mul Z.add (fun x => x) pick null0 ltV stdsort itmax F tf 7 h Hp Hs Hit (exFile_good _ HA) eq_refl) as [Hex (c & Hc & Hall)];
    [unfold F; cbn [PropTriMain.exFile mm_rows]; lia|reflexivity|lia|reflexivity|rewrite Em; lia|rewrite Es; lia|]. split; [exact Hex|].
  assert (c = 12) as ->.
  { apply (count_unique (means F) (means F) (means F)); [exact Hc|]. exists (epos <$> means F). split; [apply (bool_decide_unpack _); vm_compute; exact Logic.I|]. split; [|vm_compute; reflexivity]. intros x. split; [|tauto].
    intros Hx. split; [exact Hx|]. assert (G : Forall (fun x => x ∈ step_pos <$> meeting (means F) (means F)) (epos <$> means F)) by (apply (bool_decide_unpack _); vm_compute; exact Logic.I).
    rewrite Forall_forall in G. apply G, Hx. }
  intros r Hr. destruct (Hall r Hr) as (h' & _ & -> & Hh & _). rewrite Hh by (left; lia). rewrite Em. reflexivity.
Qed.
(** The hypotheses of [C78_wide_refuted]. *)
Example C78_wide_example : good_file exRowA (render exRowA) /\ (0, 1, 5%Z) ∈ means exRowA /\ mm_rows exRowA <= snd (epos (0, 1, 5%Z)).
Proof. split; [apply C74_mca_example|]. split; [vm_compute; left|]. cbn. lia. Qed.
