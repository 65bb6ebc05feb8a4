(** C72: ComplementMaskedSpGEMM from the text of the file to the lines it prints. *)
From Coq Require Import NArith ZArith Ascii String.
From stdpp Require Import numbers list_numbers sorting.
From Verif Require Import BaseProofs SeqStatements GraphCalls MatSpec MatStatements PropMat IoSpec IoModel PropIo ReportModel PropReport TriProofs AlgModel DriverModel TriAllModel RunSpec RunProofs PropRun MainModel MainSpec MainProofs MainCalls.
From Verif Require Import Base Spec.
Local Open Scope nat_scope.

(** C72.  For a square file of at least one row, in which no position occurs twice: the program ends, in every
    execution, without touching what else is in memory, and prints as many times as the number of outer iterations
    the lines of the mode; every line has the number of threads, the number of positions of the product of the
    matrix with itself outside of its own entries, and the sum of all products at these positions modulo 2^64.  The
    checksum of the row pointers in every line is that of the matrix of these sums, and the other checksums too in
    the lines of algorithms that order the columns; those of the others agree among themselves.
    Nothing is left in memory unless the result has no entries. *)
Theorem C72_report_partial :
  forall pick null0 (ltV : Z -> Z -> Prop) stdsort itmax f t n s tnum h,
  (forall h, h !! pick h = None) -> sort_contract ltV stdsort -> (intmax <= Z.of_nat itmax)%Z ->
  mm_wf f -> mm_symm f <> SymSkew -> values_integral f -> mm_rows f = n -> mm_cols f = n -> 1 <= n -> NoDup (epos <$> means f) -> file_text f t ->
  1 <= tnum -> (let inner := default 1 (s_inner s) in let warmup := default (if inner =? 1 then 0 else 1) (s_warmup s) in
                0 < warmup + inner /\ (N.of_nat warmup <= 2147483647)%N /\ (N.of_nat inner <= 2147483647)%N) ->
  (exists r, compMain pick null0 stdsort itmax (Some t) s tnum h r) /\
  forall r, compMain pick null0 stdsort itmax (Some t) s tnum h r ->
  exists h' out, r = Ok (h', out) /\ h ⊆ h' /\ (two_steps (means f) <> [] -> h' = h) /\
    (forall m w labels, s_mode s = Some m -> (w, labels) ∈ comp_modes -> spells m w -> fst <$> out = mjoin (replicate (default 1 (s_outer s)) labels)) /\
    ((forall m w, s_mode s = Some m -> w ∈ fst <$> comp_modes -> ~ spells m w) -> out = []) /\
    exists C ck, result_of (means f) n C /\ checksum bytesI bytesV 8 8 n (nnz C) (rowptr C) (colids C) (values C) = Ok ck /\
    (forall n1 l1, (n1, l1) ∈ out ->
       l_threads l1 = tnum /\ positions_count (means f) (l_nnz l1) /\ l_sum l1 = (step_sum (means f) mod 2 ^ 64)%Z /\
       fst (fst (l_check l1)) = fst (fst ck) /\ (ordered_label n1 = true -> l_check l1 = ck) /\
       forall n2 l2, (n2, l2) ∈ out -> ordered_label n1 = ordered_label n2 -> l_check l1 = l_check l2).
Proof.
  intros pick null0 ltV stdsort itmax f t n s tnum h Hp Hsort Hi Hwf Hsk Hint Hr Hc H1 Hnd Ht Htn (Hwn & Hw & Hin).
  destruct (input_ok ltV stdsort itmax f t n Hsort Hi Hwf Hsk Hint Hr Hc Hnd Ht) as (X & T & HX & HwX & HrX & HcX & ET & HwT & HrT & HcT & HsT & HP & Hnz & Hn & Hit).
  pose proof (benches_ok T n itmax HwT HrT HcT HsT Hnz Hn Hit H1) as HB.
  destruct (passes_ok pick null0 Hp T n (means f) HwT HrT HcT H1 HP s tnum Htn Hwn Hw Hin _ _ HB (outerIters s) h) as [[r0 Hr0] Hall].
  split.
  - exists r0. exists (Ok X). split; [apply HX; reflexivity|]. cbn [bind]. rewrite ET. cbn [bind]. eexists. split; [apply C58_flop_csc; [exact HwX|exact HwX|congruence|reflexivity]|exact Hr0].
  - intros r (rX & HrX' & Hm). apply HX in HrX'. subst rX. cbn [bind] in Hm. rewrite ET in Hm. cbn [bind] in Hm. destruct Hm as (flop & _ & Hm).
    destruct (Hall r Hm) as (h' & out & -> & K1 & K2 & K3 & K4). exists h', out. split; [reflexivity|]. split; [exact K1|]. split; [exact K2|]. split; [|split].
    + intros m w labels Es Hmode Hsp. rewrite K3. assert (Em : modeOf s = w).
      { unfold modeOf. rewrite Es. simpl. apply spells_lower; [|exact Hsp]. unfold comp_modes in Hmode. rewrite !elem_of_cons, elem_of_nil in Hmode.
        destruct Hmode as [[= -> _]|[[= -> _]|[[= -> _]|[[= -> _]|[]]]]]; reflexivity. }
      rewrite Em. unfold outerIters. f_equal. f_equal. unfold comp_modes in Hmode. rewrite !elem_of_cons, elem_of_nil in Hmode.
      destruct Hmode as [[= -> ->]|[[= -> ->]|[[= -> ->]|[[= -> ->]|[]]]]]; reflexivity.
    + intros Hno. apply (fmap_nil_inv fst). rewrite K3.
      assert (Hz : filter (fun p : text * bench => modeOf s ∈ b_modes (snd p)) (zip (heap_labels ++ hash_labels ++ msa_labels) (compBenches itmax T)) = []).
      { assert (Hmo : forall w, w ∈ fst <$> comp_modes -> modeOf s <> w).
        { intros w Hmode Em. destruct (s_mode s) as [m|] eqn:Es.
          - apply (Hno m w eq_refl Hmode). apply spells_lower; [|unfold modeOf in Em; rewrite Es in Em; exact Em].
            cbn in Hmode. rewrite !elem_of_cons, elem_of_nil in Hmode. destruct Hmode as [->|[->|[->|[->|[]]]]]; reflexivity.
          - unfold modeOf in Em. rewrite Es in Em. simpl in Em. subst w. cbn in Hmode. rewrite !elem_of_cons, elem_of_nil in Hmode. destruct Hmode as [?|[?|[?|[?|[]]]]]; discriminate. }
        assert (H4 : modeOf s <> txt "heap" /\ modeOf s <> txt "hash" /\ modeOf s <> txt "msa" /\ modeOf s <> txt "all").
        { repeat split; apply Hmo; cbn; rewrite !elem_of_cons; auto. }
        destruct H4 as (N1 & N2 & N3 & N4). apply elem_of_nil_inv. intros [lab b] Hx. apply elem_of_list_filter in Hx as [Hx Hb]. apply elem_of_zip_r in Hb. cbn [snd] in Hx.
        unfold compBenches in Hb. rewrite !elem_of_cons, elem_of_nil in Hb. cbv zeta in Hb. repeat destruct Hb as [->|Hb]; cbn [b_modes] in Hx; rewrite ?elem_of_cons, ?elem_of_nil in Hx; tauto. }
      rewrite Hz. clear. induction (outerIters s) as [|k IH]; [reflexivity|exact IH].
    + destruct (msa_call T n itmax HwT HrT HcT HsT Hnz Hn Hit H1 true true 8 ltac:(lia)) as (C & G & _).
      pose proof (good_result T n (means f) HwT HrT HcT HP C G) as HC. pose proof HC as (HwC & HrC & _).
      destruct (checksum_ok 0%Z (fun _ _ _ => True) 0%Z (stepInt 64) (plusInt 64) bytesI bytesV 8 8 (fun _ => eq_refl) (fun _ => eq_refl) C) as [ck Eck].
      { split; [apply (wf_len C HwC)|]. split; [apply (wf_colids C HwC)|apply (wf_values C HwC)]. }
      exists C, ck. split; [exact HC|]. split; [rewrite <- HrC; exact Eck|].
      intros n1 l1 Hl1. rewrite Forall_forall in K4. pose proof (K4 _ Hl1) as (L1 & L2 & L3 & C1 & G1 & E1). cbn [fst snd] in *.
      do 3 (split; [assumption|]). split; [|split].
      * unfold checksum in E1, Eck. rewrite (good_rowptr _ _ _ _ _ G1 G) in E1. pose proof G1 as (_ & R1 & _). rewrite R1 in E1. rewrite HrC in Eck. rewrite HrT in E1.
        destruct (calculateChecksum (mjoin (bytesV <$> values C1)) _) as [v1|]; [|discriminate]. destruct (calculateChecksum (mjoin (bytesI <$> colids C1)) _) as [i1|]; [|discriminate].
        destruct (calculateChecksum (mjoin (bytesV <$> values C)) _) as [v2|]; [|discriminate]. destruct (calculateChecksum (mjoin (bytesI <$> colids C)) _) as [i2|]; [|discriminate].
        cbn [bind] in E1, Eck. destruct (calculateChecksum (mjoin (bytesI <$> rowptr C)) _) as [q|]; [|discriminate]. cbn [bind] in E1, Eck. injection E1 as <-. injection Eck as <-. reflexivity.
      * intros Eo. rewrite Eo in G1. rewrite (good_unique _ _ _ _ G1 G) in E1. congruence.
      * intros n2 l2 Hl2 Eo. pose proof (K4 _ Hl2) as (_ & _ & _ & C2 & G2 & E2). cbn [fst snd] in *. rewrite Eo in G1. rewrite (good_unique _ _ _ _ G1 G2) in E1. congruence.
Qed.
Print Assumptions C72_report_partial.

(** The file of C53: 4 positions, sum 1066.  With the settings left out except the mode, two lines. *)
Lemma positions_unique E n n' : positions_count E n -> positions_count E n' -> n = n'.
Proof.
  intros (P & HP & HE & <-) (P' & HP' & HE' & <-). apply Permutation_length, NoDup_Permutation; [assumption..|]. intros x. rewrite HE, HE'. reflexivity.
Qed.
Example C72_example :
  positions_count (means exMM) 4 /\ step_sum (means exMM) = 1066%Z /\ spells (txt "HeAp") (txt "heap") /\
  forall pick null0 itmax t h, (forall h, h !! pick h = None) -> (intmax <= Z.of_nat itmax)%Z -> file_text exMM t ->
  let ends := compMain pick null0 (merge_sort zle) itmax (Some t) (mkSet None None None (Some (txt "HeAp"))) 8 h in
  (exists r, ends r) /\ forall r, ends r -> exists l1 l2, r = Ok (h, [(txt "MaskedHeap<true,true,0>-1P", l1); (txt "MaskedHeap<true,true,0>-2P", l2)]) /\
    l_threads l1 = 8 /\ l_nnz l1 = 4 /\ l_sum l1 = 1066%Z /\ l_threads l2 = 8 /\ l_nnz l2 = 4 /\ l_sum l2 = 1066%Z /\ l_check l1 = l_check l2.
Proof.
  assert (P4 : positions_count (means exMM) 4).
  { exists [(1, 1); (2, 0); (0, 2); (2, 2)]. split; [vm_compute; repeat constructor; rewrite ?elem_of_cons, ?elem_of_nil; intros H; repeat destruct H as [H|H]; congruence|]. split; [|reflexivity].
    intros x. assert (E : step_pos <$> two_steps (means exMM) = [(1, 1); (0, 2); (2, 0); (2, 2); (1, 1)] \/ step_pos <$> two_steps (means exMM) ≡ₚ [(1, 1); (1, 1); (2, 0); (0, 2); (2, 2)]).
    { right. vm_compute. solve_Permutation. }
    destruct E as [-> | ->]; rewrite !elem_of_cons, elem_of_nil; tauto. }
  assert (S4 : step_sum (means exMM) = 1066%Z) by (vm_compute; reflexivity).
  assert (Hsp : spells (txt "HeAp") (txt "heap")) by (apply spells_lower; reflexivity).
  split; [exact P4|]. split; [exact S4|]. split; [exact Hsp|]. intros pick null0 itmax t h Hp Hi Ht.
  destruct (C72_report_partial pick null0 Z.lt (merge_sort zle) itmax exMM t 3 (mkSet None None None (Some (txt "HeAp"))) 8 h Hp merge_sort_contract Hi exMM_wf) as [Hex Hall];
    [discriminate|repeat constructor|reflexivity|reflexivity|lia| |exact Ht|lia|cbn; lia|].
  { vm_compute. repeat constructor; rewrite ?elem_of_cons, ?elem_of_nil; intros H; repeat destruct H as [H|H]; congruence. }
  cbv zeta. split; [exact Hex|]. intros r Hr. destruct (Hall r Hr) as (h' & out & -> & _ & Hh & Hlab & _ & C & ck & _ & _ & Hline).
  assert (Hl : fst <$> out = heap_labels).
  { rewrite (Hlab (txt "HeAp") (txt "heap") heap_labels eq_refl ltac:(left) Hsp). vm_compute. reflexivity. }
  rewrite Hh by (vm_compute; discriminate). destruct out as [|[n1 l1] [|[n2 l2] [|]]]; try discriminate. cbn in Hl. injection Hl as -> ->.
  exists l1, l2. split; [reflexivity|]. destruct (Hline _ _ ltac:(left)) as (A1 & A2 & A3 & _ & _ & A4). destruct (Hline _ l2 ltac:(right; left)) as (B1 & B2 & B3 & _).
  pose proof (A4 _ _ ltac:(right; left)) as A5. rewrite S4 in A3, B3. split; [exact A1|]. split; [exact (positions_unique _ _ _ A2 P4)|]. split; [exact A3|].
  split; [exact B1|]. split; [exact (positions_unique _ _ _ B2 P4)|]. split; [exact B3|]. apply A5. vm_compute. reflexivity.
Qed.

(** Findings. *)
Lemma loop_body {X} (body : X -> res X -> Prop) k s x : intLoop body (S k) s (Ok x) -> exists s', body s (Ok s').
Proof. unfold intLoop. destruct (_ <=? _)%N; [|discriminate]. intros H. inversion H; subst. eauto. Qed.
Lemma run_called pick null0 b w k tnum h x : 0 < w + k ->
  run 0%Z pick null0 0%Z (stepInt 64) (plusInt 64) bytesI bytesV 8 8 (b_kind b) (b_prod b) w k [tnum] h (Ok x) -> exists nz R, b_prod b tnum nz R.
Proof.
  intros Hwk (r1 & (r2 & H1 & H2) & H). destruct r1 as [[h1 l]|]; [|discriminate H]. destruct r2 as [s|]; [|discriminate H2]. destruct H2 as (r3 & H3 & H4). destruct r3 as [s3|]; [|discriminate H4].
  destruct w as [|w].
  - destruct k as [|k]; [lia|]. apply loop_body in H3 as [s' Hm]. unfold measured in Hm. destruct (makeEmpty (fst s) (snd s)) as [s0|]; [|discriminate Hm]. destruct Hm as (R & HR & _). eauto.
  - apply loop_body in H1 as [s' (R & HR & _)]. eauto.
Qed.
Lemma pass_called pick null0 s tnum bs h x b : 0 < warmupIters s + innerIters s -> pass pick null0 s tnum bs h (Ok x) -> b ∈ bs -> modeOf s ∈ b_modes b -> exists nz R, b_prod b tnum nz R.
Proof.
  intros Hwk. revert h x. induction bs as [|b' bs IH]; intros h x Hpass Hb Hm; [inversion Hb|]. cbn [pass] in Hpass. destruct (bool_decide (modeOf s ∈ b_modes b')) eqn:E.
  - destruct Hpass as (r1 & Hr1 & Hrest). destruct r1 as [[h1 ls]|]; [|discriminate Hrest]. destruct Hrest as (r2 & Hr2 & Hx). destruct r2 as [[h2 ls2]|]; [|discriminate Hx].
    apply elem_of_cons in Hb as [->|Hb]; [|eapply IH; eauto]. destruct Hr1 as (r3 & Hr3 & E3). destruct r3 as [y|]; [|discriminate E3]. eapply run_called; eauto.
  - apply bool_decide_eq_false in E. apply elem_of_cons in Hb as [->|Hb]; [contradiction|eapply IH; eauto].
Qed.
Lemma no_product (T : csr Z) itmax b t nz R : rows T <> cols T \/ rows T = 0 -> b ∈ compBenches itmax T -> ~ b_prod b t nz R.
Proof.
  intros Hs Hb.
  assert (N1 : forall alg, ~ product1p alg T t nz R).
  { intros alg H. specialize (H 0 1 sc0 (st3 T) ltac:(lia) eq_refl). destruct Hs as [Hs|Hs]; [|exact (no_rows_1p alg 0 0 0 1 t sc0 (st3 T) _ T eq_refl Hs H)].
    destruct H as (A & B & M & HA & HB & HM & Hv & _). assert (Es : deref (st3 T) 0 = Ok T) by reflexivity. rewrite Es in HA, HB, HM. injection HA as <-. injection HB as <-. injection HM as <-.
    unfold verifyInputs in Hv. destruct (Nat.eqb_spec (cols T) (rows T)); [congruence|discriminate Hv]. }
  assert (N2 : forall alg, ~ product2p alg T t nz R).
  { intros alg H. specialize (H 0 1 2 sc0 (st3 T) ltac:(lia) eq_refl eq_refl ltac:(lia)). destruct Hs as [Hs|Hs]; [|exact (no_rows_2p alg 0 0 0 1 2 t sc0 (st3 T) _ T eq_refl Hs H)].
    destruct H as (A & B & M & HA & HB & HM & Hv & _). assert (Es : deref (st3 T) 0 = Ok T) by reflexivity. rewrite Es in HA, HB, HM. injection HA as <-. injection HB as <-. injection HM as <-.
    unfold verifyInputs in Hv. destruct (Nat.eqb_spec (cols T) (rows T)); [congruence|discriminate Hv]. }
  unfold compBenches in Hb. rewrite !elem_of_cons, elem_of_nil in Hb. cbv zeta in Hb. repeat destruct Hb as [->|Hb]; cbn [b_prod]; auto; destruct Hb.
Qed.
Lemma known_bench (T : csr Z) itmax s m w : s_mode s = Some m -> w ∈ fst <$> comp_modes -> spells m w -> exists b, b ∈ compBenches itmax T /\ modeOf s ∈ b_modes b.
Proof.
  intros Es Hw Hsp. assert (Em : modeOf s = w).
  { unfold modeOf. rewrite Es. simpl. apply spells_lower; [|exact Hsp]. cbn in Hw. rewrite !elem_of_cons, elem_of_nil in Hw. destruct Hw as [->|[->|[->|[->|[]]]]]; reflexivity. }
  rewrite Em. cbn in Hw. rewrite !elem_of_cons, elem_of_nil in Hw. destruct Hw as [->|[->|[->|[->|[]]]]].
  - exists (nth 0 (compBenches itmax T) (mkBench [] [] K1p (fun _ _ _ => False))). split; [left|left].
  - exists (nth 2 (compBenches itmax T) (mkBench [] [] K1p (fun _ _ _ => False))). split; [right; right; left|left].
  - exists (nth 6 (compBenches itmax T) (mkBench [] [] K1p (fun _ _ _ => False))). split; [do 6 right; left|left].
  - exists (nth 0 (compBenches itmax T) (mkBench [] [] K1p (fun _ _ _ => False))). split; [left|right; left].
Qed.
(** A file that is not square, or that has no rows, is not refused: the products are called on it, and no execution
    ends well (the shapes are only asserted, and with no rows the scan of the flop counts writes outside its array). *)
Theorem C72_shape_refuted :
  forall pick null0 (ltV : Z -> Z -> Prop) stdsort itmax f t s tnum h m w x,
  sort_contract ltV stdsort -> (intmax <= Z.of_nat itmax)%Z ->
  mm_wf f -> mm_symm f = SymNo -> values_integral f -> file_text f t -> mm_rows f <> mm_cols f \/ mm_rows f = 0 ->
  s_mode s = Some m -> w ∈ fst <$> comp_modes -> spells m w -> default 1 (s_outer s) <> 0 -> s_inner s <> Some 0 ->
  ~ compMain pick null0 stdsort itmax (Some t) s tnum h (Ok x).
Proof.
  intros pick null0 ltV stdsort itmax f t s tnum h m w x Hsort Hi Hwf Hsy Hint Ht Hsh Es Hw Hsp Ho Hin (rX & HrX & Hm).
  destruct (C53_read_csc_partial Z ofInt64 ltV 0%Z stdsort Hsort (Z.of_nat itmax) f t Hi Hwf ltac:(congruence) Hint ltac:(congruence) Ht) as (X & HX & HwX & E1 & E2 & _).
  apply HX in HrX. subst rX. destruct (C31_conversion Z 0%Z X HwX) as (T & ET & HwT & [F1 F2 _] & _). cbn [bind] in Hm. rewrite ET in Hm. cbn [bind] in Hm. destruct Hm as (flop & _ & Hm).
  unfold outerIters in Hm. destruct (default 1 (s_outer s)) as [|k]; [congruence|]. destruct Hm as (r1 & Hr1 & Hm).
  destruct r1 as [y|]; [|discriminate Hm]. destruct (known_bench T itmax s m w Es Hw Hsp) as (b & Hb & Hmb).
  assert (Hwk : 0 < warmupIters s + innerIters s) by (unfold innerIters, warmupIters; destruct (s_inner s) as [[|]|]; simpl; [congruence|lia|lia]).
  destruct (pass_called _ _ _ _ _ _ _ b Hwk Hr1 Hb Hmb) as (nz & R & HR). eapply (no_product T); [|exact Hb|exact HR]. rewrite F1, F2, E1, E2. exact Hsh.
Qed.
Print Assumptions C72_shape_refuted.
Definition exWide : mmfile := mkMM Integer SymNo [] 1 2 [(1, 2, 7%Z, [])].
Example C72_shape_example : mm_wf exWide /\ mm_symm exWide = SymNo /\ values_integral exWide /\ file_text exWide (render exWide) /\ mm_rows exWide <> mm_cols exWide.
Proof.
  split; [|split; [reflexivity|split; [repeat constructor|split; [|cbn; lia]]]].
  - split; [constructor|]. split; [cbn [exWide mm_entries mm_field fmap list_fmap]; repeat (apply Forall_cons; split; [apply Nat.leb_le; vm_compute; reflexivity|]); apply Forall_nil; exact I|].
    split; [vm_compute; discriminate|]. split; [vm_compute; discriminate|]. split; [vm_compute; discriminate|].
    cbn [exWide mm_entries mm_rows mm_cols]. apply Forall_cons. split; [split; [lia|split; [lia|split; [vm_compute; discriminate|left; reflexivity]]]|apply Forall_nil; exact I].
  - left. exists []. rewrite app_nil_r. reflexivity.
Qed.

(** With INNER_ITERS = 0 and WARMUP_ITERS = 0 no product is called, and the report reads through pointers that were
    never set. *)
Theorem C72_no_call_refuted :
  forall pick null0 (ltV : Z -> Z -> Prop) stdsort itmax f t n outer m w tnum h r,
  sort_contract ltV stdsort -> (intmax <= Z.of_nat itmax)%Z ->
  mm_wf f -> mm_symm f <> SymSkew -> values_integral f -> mm_rows f = n -> mm_cols f = n -> file_text f t ->
  default 1 outer <> 0 -> w ∈ fst <$> comp_modes -> spells m w ->
  compMain pick null0 stdsort itmax (Some t) (mkSet outer (Some 0) (Some 0) (Some m)) tnum h r <-> r = Err Uninit.
Proof.
  intros pick null0 ltV stdsort itmax f t n outer m w tnum h r Hsort Hi Hwf Hsk Hint Hr Hc Ht Ho Hw Hsp. set (s := mkSet _ _ _ _).
  destruct (C53_read_csc_partial Z ofInt64 ltV 0%Z stdsort Hsort (Z.of_nat itmax) f t Hi Hwf Hsk Hint ltac:(congruence) Ht) as (X & HX & HwX & E1 & E2 & _).
  destruct (C31_conversion Z 0%Z X HwX) as (T & ET & HwT & _).
  assert (Hb1 : forall b h r, bench1 pick null0 s tnum b h r <-> r = Err Uninit).
  { intros b h0 r0. unfold bench1. split.
    - intros (r1 & Hr1 & ->). apply C71_no_call_refuted in Hr1. subst r1. reflexivity.
    - intros ->. exists (Err Uninit). split; [apply C71_no_call_refuted; reflexivity|reflexivity]. }
  assert (Hpass : forall bs h r, (exists b, b ∈ bs /\ modeOf s ∈ b_modes b) -> pass pick null0 s tnum bs h r <-> r = Err Uninit).
  { induction bs as [|b bs IH]; intros h0 r0 (b0 & Hb & Hm); [inversion Hb|]. cbn [pass]. destruct (bool_decide (modeOf s ∈ b_modes b)) eqn:E.
    - split.
      + intros (r1 & Hr1 & Hrest). apply Hb1 in Hr1. subst r1. exact Hrest.
      + intros ->. exists (Err Uninit). split; [apply Hb1; reflexivity|reflexivity].
    - apply bool_decide_eq_false in E. apply elem_of_cons in Hb as [->|Hb]; [contradiction|]. apply IH. eauto. }
  assert (Hk : exists b, b ∈ compBenches itmax T /\ modeOf s ∈ b_modes b) by (eapply known_bench; [reflexivity|exact Hw|exact Hsp]).
  unfold compMain. split.
  - intros (rX & HrX & Hm). apply HX in HrX. subst rX. cbn [bind] in Hm. rewrite ET in Hm. cbn [bind] in Hm. destruct Hm as (flop & _ & Hm). unfold outerIters in Hm. change (s_outer s) with outer in Hm.
    destruct (default 1 outer) as [|k]; [congruence|]. destruct Hm as (r1 & Hr1 & Hm). apply (Hpass _ _ _ Hk) in Hr1. subst r1. exact Hm.
  - intros ->. exists (Ok X). split; [apply HX; reflexivity|]. cbn [bind]. rewrite ET. cbn [bind]. eexists. split; [apply C58_flop_csc; [exact HwX|exact HwX|congruence|reflexivity]|].
    unfold outerIters. change (s_outer s) with outer. destruct (default 1 outer) as [|k]; [congruence|]. exists (Err Uninit). split; [apply (Hpass _ _ _ Hk); reflexivity|reflexivity].
Qed.
Print Assumptions C72_no_call_refuted.
