(** C84: OuterSpGEMM (the program) from the arguments and the texts of the files to the printed lines. *)
From Coq Require Import NArith ZArith Ascii String Sorted.
From stdpp Require Import numbers list_numbers gmap sorting.
From Verif Require Import BaseProofs WorkModel WorkProofs Assemble MatSpec MatStatements ConvProofs PropReport IoSpec IoModel PropIo PropMat MatModel DriverModel ReportModel
  MainSpec MainCalls AllMainModel AllMainSpec AllMainProofs AllMainCalls OuterModel PropOuter ShufModel ShufSpec PropShuf.
From Verif Require IoProofs.
From Verif Require Import Examples IoModel TriMainSpec PropTriMain PropAllMain SampleModel SampleProofs PropSample SpaMainModel SpaMainSpec SpaMainProofs PropSpaMain.
From Verif Require Import GenModel GenProofs PropGen HashMainModel HashMainProofs PropHashMain HeapProgProofs PropHeapProg OuterProgModel OuterProgProofs.
From Verif Require Import Base Spec.
Local Open Scope nat_scope.

(** Every column of the file has an entry. *)
Definition full_cols (f : mmfile) : Prop := forall j, j < mm_cols f -> exists i, (i, j) ∈ epos <$> means f.

Section C84.
Context {V : Type} (dflt : V) (mul add : V -> V -> V) (ofInt : Z -> V) (ltV : V -> V -> Prop) (stdsort : list (nat * V) -> list (nat * V)) (itmax : nat).
Context (Hsort : sort_contract ltV stdsort) (Hit : (intmax <= Z.of_nat itmax)%Z).
Context (generate : bool -> Z -> Z -> res (csc V * csc V)) (readBin : option text -> res (option (csc V)) -> Prop) (files : text -> option text) (drawA drawB : nat -> nat -> nat).
Context (HdA : ShufSpec.in_range drawA) (HdB : ShufSpec.in_range drawB).
Notation main := (outerMain dflt mul add ofInt stdsort generate readBin files drawA drawB itmax).
Notation setInputs := (setInputs dflt ofInt stdsort (Z.of_nat itmax) generate readBin files).

Lemma flag_rows (X : csr V) : wf X -> sorted_rows X -> sortedFlag (rows X) (rowptr X) (colids X) = Ok true.
Proof using Type.
  clear. intros HX HS. destruct (C33_sorted_flag V X HX) as (r & E & Hr). rewrite E. f_equal. apply Hr. intros i Hi. specialize (HS i Hi).
  clear -HS. induction HS as [|x l _ IH Hx]; constructor; [exact IH|]. eapply Forall_impl; [exact Hx|]. intros y Hy. cbn in Hy. lia.
Qed.
(** What reaches the loop. *)
Lemma loaded4 a0 mode nA nB rest fA fB tA tB : mode <> txt "gen" -> mode <> txt "binary" -> plain_name nA -> files nA = Some tA -> files nB = Some tB -> good_file fA tA -> good_file fB tB ->
  mm_cols fA = mm_rows fB -> full_cols fA -> full_rows fB ->
  exists A B T, (exists rI, setInputs (a0 :: mode :: nA :: nB :: rest) rI) /\
    (forall rI, setInputs (a0 :: mode :: nA :: nB :: rest) rI -> outerInput dflt drawA drawB rI = Ok (A, B, [true; true; true; true])) /\
    wf_csc A /\ wf B /\ c_cols A = rows B /\ c_rows A = mm_rows fA /\ cols B = mm_cols fB /\
    wf T /\ same_matrix T A /\ distinct_rows T /\ (forall k, k < c_cols A -> NoDup (fst <$> col_entries A k)) /\
    conv ofInt <$> means fA ≡ₚ triples T /\ conv ofInt <$> means fA ≡ₚ triples_csc A /\ conv ofInt <$> means fB ≡ₚ triples B.
Proof.
  intros Hg Hb Hn FA FB GA GB Hsq RA RB. pose proof GA as (WA1 & WA2 & WA3 & WA4 & WA5 & WA6). pose proof GB as (WB1 & WB2 & WB3 & WB4 & WB5 & WB6).
  destruct (input_okA dflt ofInt ltV stdsort itmax fA tA Hsort Hit WA1 WA2 WA3 WA4 WA5 WA6) as (XA & T & IA & XA1 & XA2 & XA3 & XA4 & A1 & A2 & A3 & A4 & A5 & A6 & A7 & A8).
  destruct (input_okA dflt ofInt ltV stdsort itmax fB tB Hsort Hit WB1 WB2 WB3 WB4 WB5 WB6) as (XB & B & IB & XB1 & XB2 & XB3 & XB4 & B1 & B2 & B3 & B4 & B5 & B6 & B7 & B8).
  destruct (read_of_inputS _ _ _ _ _ _ _ (inputS_ok _ _ _ _ _ _ _ IA)) as [RDA EA]. destruct (read_of_inputS _ _ _ _ _ _ _ (inputS_ok _ _ _ _ _ _ _ IB)) as [RDB EB].
  destruct (plain_stem nA Hn) as [s0 Hst].
  assert (NA : forall j, j < c_cols XA -> col_entries XA j <> []).
  { intros j Hj E. rewrite XA3 in Hj. destruct (RA j Hj) as [i Hi]. assert (H : (i, j) ∈ fst <$> triples T) by (rewrite <- A6, <- list_fmap_compose; exact Hi).
    apply elem_of_list_fmap in H as ([[i' j'] v] & E2 & H). cbn [fst] in E2. injection E2 as <- <-. apply triplesV_elem in H as [Hi' H]. apply (sm_entries _ _ A5) in H; [|exact Hi'|congruence]. rewrite E in H. inversion H. }
  assert (NB : forall i, i < rows B -> row_entries B i <> []).
  { intros i Hi E. rewrite (rows_entries ofInt (means fB) B i B6 Hi) in E. rewrite B2 in Hi. destruct (RB i Hi) as [j Hj]. exact (E j Hj). }
  destruct (C61_shuffle_csc true drawA XA HdA XA1 (fun _ => NA)) as (A' & SA & S1 & S2 & S3 & S4 & S5 & S6).
  destruct (C61_shuffle true drawB B HdB B1 (fun _ => NB)) as (B' & SB & T1 & T2 & T3 & T4 & T5 & T6).
  exists A', B', T. split; [|split].
  - eexists. unfold GenModel.setInputs, arg. cbn [get lookup list_lookup bind]. unfold sameText. rewrite !bool_decide_eq_false_2 by assumption. rewrite FA, FB.
    exists (Ok XA), (Ok XB). split; [apply RDA; reflexivity|]. split; [apply RDB; reflexivity|]. reflexivity.
  - intros rI HrI. unfold GenModel.setInputs, arg in HrI. cbn [get lookup list_lookup bind] in HrI. unfold sameText in HrI. rewrite !bool_decide_eq_false_2 in HrI by assumption. rewrite FA, FB in HrI.
    destruct HrI as (rA & rB & H1 & H2 & ->). apply RDA in H1. apply RDB in H2. subst. cbn [bind]. rewrite Hst. unfold outerInput. cbn [bind]. rewrite EB. cbn [bind]. rewrite EA. cbn [bind].
    rewrite (flag_true XA XA1 XA4). cbn [bind]. rewrite (flag_rows T A1 A4). cbn [bind]. rewrite (flag_true XB XB1 XB4). cbn [bind]. rewrite (flag_rows B B1 B4). cbn [bind]. rewrite SA. cbn [bind]. rewrite SB. reflexivity.
  - split; [exact S1|]. split; [exact T1|]. split; [congruence|]. split; [congruence|]. split; [congruence|]. split; [exact A1|]. split; [|split; [|split; [|split; [exact A6|split]]]].
    + destruct A5 as [M1 M2 M3]. split; [congruence|congruence|]. intros k j b Hk Hj. rewrite (M3 k j b Hk Hj). rewrite (S6 j) by congruence. reflexivity.
    + intros i Hi. apply sorted_NoDup, A4, Hi.
    + intros k Hk. rewrite S3 in Hk. rewrite (S6 k Hk). apply sorted_NoDup, XA4, Hk.
    + rewrite A7, !triples_csc_swap. apply fmap_Permutation. symmetry. apply perm_triples; [exact S3|exact S6].
    + rewrite B6. symmetry. apply perm_triples; assumption.
Qed.

Lemma numArg_nat argv k n : argv !! k = Some (showNat n) -> (N.of_nat n < 2 ^ 16)%N -> numArg argv k = Ok n.
Proof using Type.
  clear. intros E Hn. unfold numArg, arg, get. rewrite E. cbn [bind]. pose proof (IoProofs.atoi_nat n [] ltac:(unfold intmax; lia) Logic.I) as Ea. rewrite app_nil_r in Ea. rewrite Ea. cbn [bind]. f_equal.
  rewrite Z.mod_small by lia. apply Nat2Z.id.
Qed.

(** For two files with integral values and an entry in every column of A and row of B, whose sizes fit, and all seven arguments, whatever the shuffles
    draw and the threads do: the program ends with result 0, says that the four matrices are sorted, prints twice the number of
    multiplications, and for the number of threads given the number of positions of the product.  It loses memory in each of its 16 calls. *)
Theorem C84_report_partial a0 mode nA nB x t nb bw more fA fB tA tB c :
  mode <> txt "gen" -> mode <> txt "binary" -> plain_name nA -> files nA = Some tA -> files nB = Some tB -> good_file fA tA -> good_file fB tB ->
  mm_cols fA = mm_rows fB -> full_cols fA -> full_rows fB ->
  1 <= t -> (Z.of_nat t <= intmax)%Z -> 1 <= nb -> (N.of_nat nb < 2 ^ 16)%N -> 1 <= bw -> (N.of_nat bw < 2 ^ 16)%N -> (N.of_nat nb * N.of_nat bw < 2 ^ 27)%N ->
  (N.of_nat (mm_rows fA + 1) < 2 ^ 17)%N -> (N.of_nat (mm_rows fA) <= 4096 * N.of_nat nb)%N -> (N.of_nat (mm_cols fB) <= 2 ^ 20)%N -> (N.of_nat (length (meeting (means fA) (means fB))) < 2 ^ 27)%N ->
  product_count (means fA) (means fB) c ->
  let argv := a0 :: mode :: nA :: nB :: x :: showNat t :: showNat nb :: showNat bw :: more in
  (exists r, main argv r) /\ forall r, main argv r -> exists lost,
    r = Ok (0%Z, Some ([true; true; true; true], N.of_nat (2 * length (meeting (means fA) (means fB)))), [(c, t)], lost) /\ 16 * (mm_rows fA + nb + t) <= lost.
Proof.
  intros Hg Hb Hn FA FB GA GB Hsq RA RB Ht Ht2 N1 N2 W1 W2 HL HN HR HCo Hm Hc argv.
  destruct (loaded4 a0 mode nA nB (x :: showNat t :: showNat nb :: showNat bw :: more) fA fB tA tB Hg Hb Hn FA FB GA GB Hsq RA RB) as (A & B & T & [rI0 HI0] & HI & A1 & B1 & Hin & A2 & B2 & T1 & T2 & T3 & T4 & P1 & P2 & P3).
  fold argv in HI0, HI. pose proof (mult_file ofInt _ _ _ _ P2 P3) as EM.
  assert (Hnb : numArg argv 6 = Ok nb) by (apply numArg_nat; [reflexivity|exact N2]). assert (Hbw : numArg argv 7 = Ok bw) by (apply numArg_nat; [reflexivity|exact W2]).
  assert (OA : outer_args A B nb bw t) by (constructor; auto).
  assert (OS : outer_sizes A B nb). { constructor; [|rewrite A2; exact HR|rewrite B2; exact HCo]. intros b _. pose proof (block_le A B (blockRows (c_rows A) nb) b Hin) as L. rewrite EM in L. clear -L Hm. lia. }
  assert (EF : forall rf, getFlopOuter_returns 32 A B rf <-> rf = Ok (N.of_nat (2 * length (meeting (means fA) (means fB))))).
  { intros rf. rewrite (C58_flop_outer_partial 32 A B A1 B1 Hin), EM; [reflexivity|]. intros i Hi. pose proof (column_le A B i Hin Hi) as L. rewrite EM in L. clear -L Hm. lia. }
  assert (ET : outerThreads argv = Ok [t]).
  { unfold outerThreads, argv. cbn [length Nat.ltb Nat.leb]. unfold arg. cbn [get lookup list_lookup bind]. pose proof (IoProofs.atoi_nat t [] Ht2 Logic.I) as E. rewrite app_nil_r in E. rewrite E. cbn [bind]. rewrite Nat2Z.id. reflexivity. }
  destruct (outerOne_ok mul add itmax t nb bw argv A B Hnb Hbw OA OS ltac:(rewrite A2; exact HN) 15 ltac:(clear; lia)) as [[r1 H1] HU].
  assert (E4 : (length argv <? 4) = false) by reflexivity. unfold outerMain. rewrite E4, ET. split.
  - destruct (HU r1 H1) as (C & lost & -> & _). eexists. exists rI0. split; [exact HI0|]. rewrite (HI rI0 HI0). eexists. split; [apply EF; reflexivity|]. eexists. split; [|reflexivity].
    exists (Ok ((nnz C, t), lost)). split; [exact H1|]. eexists. split; [reflexivity|reflexivity].
  - intros r (rI & HrI & H). rewrite (HI rI HrI) in H. destruct H as (rf & Hf & H). apply EF in Hf. subst rf. destruct H as (r2 & H2 & ->). destruct H2 as (r3 & H3 & H2).
    destruct (HU r3 H3) as (C & lost & -> & HC & HK). destruct H2 as (r4 & -> & ->). cbn [bind].
    assert (Ec : nnz C = c). { eapply product_unique; [|exact Hc]. eapply (count_outer mul add ofInt A T B C); [exact T1|exact T2|exact T3|exact T4|rewrite (sm_cols _ _ T2); exact Hin|exact P1|exact P3|exact HC]. }
    rewrite Ec. exists (lost + 0). split; [reflexivity|]. rewrite A2 in HK. clear -HK. lia.
Qed.

(** Finding: every run that gets to a result loses memory. *)
Theorem C84_leak_refuted a0 mode nA nB x t nb bw more fA fB tA tB z o lines lost :
  mode <> txt "gen" -> mode <> txt "binary" -> plain_name nA -> files nA = Some tA -> files nB = Some tB -> good_file fA tA -> good_file fB tB ->
  mm_cols fA = mm_rows fB -> full_cols fA -> full_rows fB ->
  1 <= t -> (Z.of_nat t <= intmax)%Z -> 1 <= nb -> (N.of_nat nb < 2 ^ 16)%N -> 1 <= bw -> (N.of_nat bw < 2 ^ 16)%N -> (N.of_nat nb * N.of_nat bw < 2 ^ 27)%N ->
  (N.of_nat (mm_rows fA + 1) < 2 ^ 17)%N -> (N.of_nat (mm_rows fA) <= 4096 * N.of_nat nb)%N -> (N.of_nat (mm_cols fB) <= 2 ^ 20)%N -> (N.of_nat (length (meeting (means fA) (means fB))) < 2 ^ 27)%N ->
  main (a0 :: mode :: nA :: nB :: x :: showNat t :: showNat nb :: showNat bw :: more) (Ok (z, o, lines, lost)) -> 0 < lost.
Proof.
  intros Hg Hb Hn FA FB GA GB Hsq RA RB Ht Ht2 N1 N2 W1 W2 HL HN HR HCo Hm Hmain. destruct (product_exists (means fA) (means fB)) as [c Hc].
  destruct (C84_report_partial a0 mode nA nB x t nb bw more fA fB tA tB c Hg Hb Hn FA FB GA GB Hsq RA RB Ht Ht2 N1 N2 W1 W2 HL HN HR HCo Hm Hc) as [_ HU].
  destruct (HU _ Hmain) as (lost' & E & HK). injection E as _ _ _ ->. clear -HK Ht. lia.
Qed.

(** Too few arguments: the result is -1, nothing is read or computed. *)
Theorem C84_usage argv r : length argv < 4 -> main argv r <-> r = Ok ((-1)%Z, None, [], 0).
Proof using Type. clear. intros H. unfold outerMain. apply Nat.ltb_lt in H. rewrite H. reflexivity. Qed.

(** Finding: with three to six arguments, which the text about the usage allows, the program reads arguments that do not exist. *)
Theorem C84_missing_refuted a0 mode nA nB rest fA fB tA tB :
  mode <> txt "gen" -> mode <> txt "binary" -> plain_name nA -> files nA = Some tA -> files nB = Some tB -> good_file fA tA -> good_file fB tB ->
  mm_cols fA = mm_rows fB -> full_cols fA -> full_rows fB -> (N.of_nat (length (meeting (means fA) (means fB))) < 2 ^ 32)%N ->
  (rest = [] \/ (exists x, rest = [x]) \/ (exists x t, rest = [x; showNat t] /\ (Z.of_nat t <= intmax)%Z) \/ exists x t nb, rest = [x; showNat t; showNat nb] /\ (Z.of_nat t <= intmax)%Z /\ (N.of_nat nb < 2 ^ 16)%N) ->
  forall r, main (a0 :: mode :: nA :: nB :: rest) r <-> r = Err OutOfBounds.
Proof.
  intros Hg Hb Hn FA FB GA GB Hsq RA RB Hm Hrest r.
  destruct (loaded4 a0 mode nA nB rest fA fB tA tB Hg Hb Hn FA FB GA GB Hsq RA RB) as (A & B & T & [rI0 HI0] & HI & A1 & B1 & Hin & A2 & B2 & T1 & T2 & T3 & T4 & P1 & P2 & P3).
  set (argv := a0 :: mode :: nA :: nB :: rest) in *. pose proof (mult_file ofInt _ _ _ _ P2 P3) as EM.
  assert (EF : forall rf, getFlopOuter_returns 32 A B rf <-> rf = Ok (N.of_nat (2 * length (meeting (means fA) (means fB))))).
  { intros rf. rewrite (C58_flop_outer_partial 32 A B A1 B1 Hin), EM; [reflexivity|]. intros i Hi. pose proof (column_le A B i Hin Hi) as L. rewrite EM in L. clear -L Hm. lia. }
  assert (EA : exists t, outerThreads argv = Ok [t] /\ (nb <- numArg argv 6 ;; bw <- numArg argv 7 ;; Ok (nb, bw)) = Err OutOfBounds).
  { unfold argv. destruct Hrest as [-> | [(x & ->)|[(x & t & -> & Ht)|(x & t & nb & -> & Ht & Hnb)]]].
    - exists 1. split; reflexivity.
    - exists 1. split; reflexivity.
    - exists t. split; [|reflexivity]. unfold outerThreads. cbn [length Nat.ltb Nat.leb]. unfold arg. cbn [get lookup list_lookup bind]. pose proof (IoProofs.atoi_nat t [] Ht Logic.I) as E. rewrite app_nil_r in E. rewrite E. cbn [bind]. rewrite Nat2Z.id. reflexivity.
    - exists t. split; [|rewrite (numArg_nat [a0; mode; nA; nB; x; showNat t; showNat nb] 6 nb eq_refl Hnb); reflexivity]. unfold outerThreads. cbn [length Nat.ltb Nat.leb]. unfold arg. cbn [get lookup list_lookup bind]. pose proof (IoProofs.atoi_nat t [] Ht Logic.I) as E. rewrite app_nil_r in E. rewrite E. cbn [bind]. rewrite Nat2Z.id. reflexivity. }
  destruct EA as (t & ET & EN). assert (E4 : (length argv <? 4) = false) by reflexivity. unfold outerMain. rewrite E4, ET.
  assert (EC : forall r, outerCall mul add itmax argv t A B newCsr r <-> r = Err OutOfBounds) by (intros r'; unfold outerCall; rewrite EN; reflexivity).
  split.
  - intros (rI & HrI & H). rewrite (HI rI HrI) in H. destruct H as (rf & Hf & H). apply EF in Hf. subst rf. destruct H as (r2 & H2 & ->). destruct H2 as (r3 & H3 & H2).
    destruct H3 as (r1 & H1 & H3). apply EC in H1. subst r1. subst r3. subst r2. reflexivity.
  - intros ->. exists rI0. split; [exact HI0|]. rewrite (HI rI0 HI0). eexists. split; [apply EF; reflexivity|]. exists (Err OutOfBounds). split; [|reflexivity].
    exists (Err OutOfBounds). split; [|reflexivity]. exists (Err OutOfBounds). split; [apply EC; reflexivity|reflexivity].
Qed.

Lemma asked_outer a0 mode nA nB rest : (length rest <= 1 \/ exists x t more, rest = x :: showNat t :: more /\ (Z.of_nat t <= intmax)%Z) -> exists tnums, outerThreads (a0 :: mode :: nA :: nB :: rest) = Ok tnums.
Proof using Type.
  clear. intros [Hl|(x & t & more & -> & Ht)]; unfold outerThreads.
  - exists [1]. destruct rest as [|y [|z rest]]; cbn [length] in Hl; [reflexivity|reflexivity|lia].
  - exists [t]. cbn [length Nat.ltb Nat.leb]. unfold arg. cbn [get lookup list_lookup bind]. pose proof (IoProofs.atoi_nat t [] Ht Logic.I) as E. rewrite app_nil_r in E. rewrite E. cbn [bind]. rewrite Nat2Z.id. reflexivity.
Qed.

(** Finding: a column of the first file or a row of the second without an entry, and shuffleIds asks for a number between 0 and -1. *)
Theorem C84_empty_refuted a0 mode nA nB rest fA fB tA tB r :
  mode <> txt "gen" -> mode <> txt "binary" -> plain_name nA -> files nA = Some tA -> files nB = Some tB -> good_file fA tA -> good_file fB tB ->
  ((exists j, j < mm_cols fA /\ forall i, (i, j) ∉ epos <$> means fA) \/ exists i, i < mm_rows fB /\ forall j, (i, j) ∉ epos <$> means fB) ->
  (length rest <= 1 \/ exists x t more, rest = x :: showNat t :: more /\ (Z.of_nat t <= intmax)%Z) ->
  main (a0 :: mode :: nA :: nB :: rest) r <-> r = Err AssertFail.
Proof.
  intros Hg Hb Hn FA FB GA GB Hemp Hask. pose proof GA as (WA1 & WA2 & WA3 & WA4 & WA5 & WA6). pose proof GB as (WB1 & WB2 & WB3 & WB4 & WB5 & WB6).
  destruct (input_okA dflt ofInt ltV stdsort itmax fA tA Hsort Hit WA1 WA2 WA3 WA4 WA5 WA6) as (XA & T & IA & XA1 & XA2 & XA3 & XA4 & A1 & A2 & A3 & A4 & A5 & A6 & A7 & A8).
  destruct (input_okA dflt ofInt ltV stdsort itmax fB tB Hsort Hit WB1 WB2 WB3 WB4 WB5 WB6) as (XB & B & IB & XB1 & XB2 & XB3 & XB4 & B1 & B2 & B3 & B4 & B5 & B6 & B7 & B8).
  destruct (read_of_inputS _ _ _ _ _ _ _ (inputS_ok _ _ _ _ _ _ _ IA)) as [RDA EA]. destruct (read_of_inputS _ _ _ _ _ _ _ (inputS_ok _ _ _ _ _ _ _ IB)) as [RDB EB].
  destruct (plain_stem nA Hn) as [s0 Hst].
  assert (HI : forall rI, setInputs (a0 :: mode :: nA :: nB :: rest) rI <-> rI = Ok (XA, XB)).
  { intros rI. unfold GenModel.setInputs, arg. cbn [get lookup list_lookup bind]. unfold sameText. rewrite !bool_decide_eq_false_2 by assumption. rewrite FA, FB. split.
    - intros (rA & rB & H1 & H2 & ->). apply RDA in H1. apply RDB in H2. subst. cbn [bind]. rewrite Hst. reflexivity.
    - intros ->. exists (Ok XA), (Ok XB). split; [apply RDA; reflexivity|]. split; [apply RDB; reflexivity|]. cbn [bind]. rewrite Hst. reflexivity. }
  assert (SAE : (exists j, j < c_cols XA /\ col_entries XA j = []) -> shuffleCsc true drawA XA = Err AssertFail).
  { intros He. pose proof (C61_signed_refuted drawA (csc_tr XA) HdA XA1 He) as E. rewrite shuffleCsc_tr in E. destruct (shuffleCsc true drawA XA) as [?|e]; [discriminate|]. cbn [bind] in E. injection E as ->. reflexivity. }
  assert (EI : outerInput dflt drawA drawB (Ok (XA, XB)) = Err AssertFail).
  { unfold outerInput. cbn [bind]. rewrite EB. cbn [bind]. rewrite EA. cbn [bind].
    rewrite (flag_true XA XA1 XA4). cbn [bind]. rewrite (flag_rows T A1 A4). cbn [bind]. rewrite (flag_true XB XB1 XB4). cbn [bind]. rewrite (flag_rows B B1 B4). cbn [bind].
    destruct (decide (Exists (fun j => col_entries XA j = []) (seq 0 (c_cols XA)))) as [D|D].
    - apply Exists_exists in D as (j & Hj & Ej). apply elem_of_seq in Hj. rewrite SAE; [reflexivity|]. exists j. split; [lia|exact Ej].
    - destruct (C61_shuffle_csc true drawA XA HdA XA1) as (A' & SA & _). { intros _ j Hj Ej. apply D, Exists_exists. exists j. split; [apply elem_of_seq; lia|exact Ej]. }
      rewrite SA. cbn [bind]. destruct Hemp as [(j & Hj & Hno)|(i & Hi & Hno)].
      + exfalso. apply D, Exists_exists. exists j. split; [apply elem_of_seq; lia|]. destruct (col_entries XA j) as [|[i v] l] eqn:Ej; [reflexivity|]. exfalso.
        assert (Hin : (i, v) ∈ col_entries XA j) by (rewrite Ej; left).
        assert (H : ((i, j), v) ∈ triples_csc XA). { rewrite triples_csc_swap. apply elem_of_list_fmap. exists ((j, i), v). split; [reflexivity|]. apply triplesV_elem. split; [cbn [csc_tr rows]; lia|exact Hin]. }
        apply (Hno i). rewrite <- A7 in H. assert (H2 : (i, j) ∈ fst <$> (conv ofInt <$> means fA)) by (apply elem_of_list_fmap; exists ((i, j), v); split; [reflexivity|exact H]).
        rewrite <- list_fmap_compose in H2. exact H2.
      + rewrite (C61_signed_refuted drawB B HdB B1); [reflexivity|]. exists i. split; [lia|]. apply (rows_entries ofInt (means fB) B i B6 ltac:(lia)). intros j. exact (Hno j). }
  destruct (asked_outer a0 mode nA nB rest Hask) as [tnums ET]. unfold outerMain. rewrite ET. cbn [length Nat.ltb Nat.leb]. split.
  - intros (rI & HrI & H). apply HI in HrI. subst rI. rewrite EI in H. exact H.
  - intros ->. exists (Ok (XA, XB)). split; [apply HI; reflexivity|]. rewrite EI. reflexivity.
Qed.

(** Finding: a first file name without a usable point is split out of bounds, as in the other programs. *)
Theorem C84_name_refuted a0 mode nA nB rest fA fB tA tB r :
  mode <> txt "gen" -> mode <> txt "binary" -> ("."%char ∉ nA \/ (exists n, nA = "."%char :: n /\ "."%char ∉ n) \/ exists u n, nA = (u ++ ["."; "."] ++ n)%char /\ "."%char ∉ n /\ n <> []) ->
  files nA = Some tA -> files nB = Some tB -> good_file fA tA -> good_file fB tB ->
  (length rest <= 1 \/ exists x t more, rest = x :: showNat t :: more /\ (Z.of_nat t <= intmax)%Z) ->
  main (a0 :: mode :: nA :: nB :: rest) r <-> r = Err OutOfBounds.
Proof.
  intros Hg Hb Hn FA FB GA GB Hask.
  destruct (loaded3 dflt ofInt ltV stdsort itmax Hsort Hit generate readBin files a0 mode nA nB rest fA fB tA tB Hg Hb FA FB GA GB) as (XA & XB & A & B & HI & _).
  assert (Hst : stem nA = Err OutOfBounds) by (destruct Hn as [Hn|[(n & -> & Hn)|(u & n & -> & Hn & Hnn)]]; [apply stem_nodot, Hn|apply stem_dot, Hn|apply stem_dots; assumption]).
  rewrite Hst in HI. cbn [bind] in HI. destruct (asked_outer a0 mode nA nB rest Hask) as [tnums ET]. unfold outerMain. rewrite ET. cbn [length Nat.ltb Nat.leb]. split.
  - intros (rI & HrI & Hm). apply HI in HrI. subst rI. exact Hm.
  - intros ->. exists (Err OutOfBounds). split; [apply HI; reflexivity|]. reflexivity.
Qed.
End C84.
Print Assumptions C84_report_partial.
Print Assumptions C84_leak_refuted.
Print Assumptions C84_usage.
Print Assumptions C84_missing_refuted.
Print Assumptions C84_empty_refuted.
Print Assumptions C84_name_refuted.

(** The complete graph on four vertices as both files, 3 threads and 2 blocks of 5 tuples: 36 multiplications, 16 positions, and at least
    16 * (4 + 2 + 3) cells lost.  Without the last argument there is no result. *)
Example C84_example : forall ltV stdsort itmax generate readBin (files : text -> option text) drawA drawB tA tB,
  sort_contract ltV stdsort -> (intmax <= Z.of_nat itmax)%Z -> ShufSpec.in_range drawA -> ShufSpec.in_range drawB ->
  files (txt "data/k4.mtx") = Some tA -> files (txt "b") = Some tB -> file_text PropTriMain.exFile tA -> file_text PropTriMain.exFile tB ->
  let main := outerMain 0%Z Z.mul Z.add (fun x => x) stdsort generate readBin files drawA drawB itmax in
  let argv := [txt "prog"; txt "text"; txt "data/k4.mtx"; txt "b"; txt "x"; txt "3"; txt "2"; txt "5"] in
  (exists r, main argv r) /\ (forall r, main argv r -> exists lost, r = Ok (0%Z, Some ([true; true; true; true], 72%N), [(16, 3)], lost) /\ 144 <= lost) /\
  forall r, main (take 7 argv) r <-> r = Err OutOfBounds.
Proof.
  intros ltV stdsort itmax generate readBin files drawA drawB tA tB Hs Hit HdA HdB FA FB HA HB main argv. set (F := PropTriMain.exFile) in *.
  assert (Em : length (meeting (means F) (means F)) = 36) by (vm_compute; reflexivity).
  assert (Hc : product_count (means F) (means F) 16).
  { exists (list_prod (seq 0 4) (seq 0 4)). split; [apply (bool_decide_unpack _); vm_compute; exact Logic.I|]. split; [|reflexivity]. intros x. split; revert x; rewrite <- Forall_forall; apply (bool_decide_unpack _); vm_compute; exact Logic.I. }
  assert (HP : plain_name (txt "data/k4.mtx")).
  { exists (txt "data/"), (txt "k4"), (txt "mtx"). split; [reflexivity|]. split; [right; exists (txt "data"); reflexivity|]. split; [discriminate|].
    split; [apply (bool_decide_unpack _); vm_compute; exact Logic.I|]. split; [apply (bool_decide_unpack _); vm_compute; exact Logic.I|]. split; [discriminate|]. apply (bool_decide_unpack _); vm_compute; exact Logic.I. }
  assert (HR : full_rows F).
  { intros i Hi'. unfold F in Hi'. cbn [PropTriMain.exFile mm_rows] in Hi'. exists (if i =? 0 then 1 else 0). do 4 (destruct i as [|i]; [apply (bool_decide_unpack _); vm_compute; exact Logic.I|]). lia. }
  assert (HCo : full_cols F).
  { intros i Hi'. unfold F in Hi'. cbn [PropTriMain.exFile mm_cols] in Hi'. exists (if i =? 0 then 1 else 0). do 4 (destruct i as [|i]; [apply (bool_decide_unpack _); vm_compute; exact Logic.I|]). lia. }
  destruct (C84_report_partial 0%Z Z.mul Z.add (fun x => x) ltV stdsort itmax Hs Hit generate readBin files drawA drawB HdA HdB (txt "prog") (txt "text") (txt "data/k4.mtx") (txt "b") (txt "x") 3 2 5 [] F F tA tB 16) as [H1 H2];
    [discriminate|discriminate|exact HP|exact FA|exact FB|exact (exFile_good _ HA)|exact (exFile_good _ HB)|reflexivity|exact HCo|exact HR|lia|vm_compute; discriminate|lia|reflexivity|lia|reflexivity|reflexivity|reflexivity|vm_compute; discriminate|vm_compute; discriminate|rewrite Em; reflexivity|exact Hc|].
  split; [exact H1|]. split.
  - intros r Hr. destruct (H2 r Hr) as (lost & -> & HK). exists lost. rewrite Em. split; [reflexivity|]. unfold F in HK. cbn [PropTriMain.exFile mm_rows] in HK. lia.
  - intros r. apply (C84_missing_refuted 0%Z Z.mul Z.add (fun x => x) ltV stdsort itmax Hs Hit generate readBin files drawA drawB HdA HdB (txt "prog") (txt "text") (txt "data/k4.mtx") (txt "b") [txt "x"; txt "3"; txt "2"] F F tA tB);
      [discriminate|discriminate|exact HP|exact FA|exact FB|exact (exFile_good _ HA)|exact (exFile_good _ HB)|reflexivity|exact HCo|exact HR|rewrite Em; reflexivity|].
    right. right. right. exists (txt "x"), 3, 2. split; [reflexivity|]. split; [vm_compute; discriminate|reflexivity].
Qed.
(** The findings about the input: the row (0 5) as the first file has a column without an entry; the name k4 has no point. *)
Example C84_findings_example : forall ltV stdsort itmax generate readBin (files : text -> option text) drawA drawB tR tA tB,
  sort_contract ltV stdsort -> (intmax <= Z.of_nat itmax)%Z -> ShufSpec.in_range drawA -> ShufSpec.in_range drawB ->
  files (txt "data/row.mtx") = Some tR -> files (txt "k4") = Some tA -> files (txt "b") = Some tB -> file_text exRowA tR -> file_text PropTriMain.exFile tA -> file_text PropTriMain.exFile tB ->
  let main := outerMain 0%Z Z.mul Z.add (fun x => x) stdsort generate readBin files drawA drawB itmax in
  (forall r, main [txt "prog"; txt "text"; txt "data/row.mtx"; txt "b"; txt "x"; txt "3"; txt "2"; txt "5"] r <-> r = Err AssertFail) /\
  (forall r, main [txt "prog"; txt "text"; txt "k4"; txt "b"; txt "x"; txt "3"; txt "2"; txt "5"] r <-> r = Err OutOfBounds).
Proof.
  intros ltV stdsort itmax generate readBin files drawA drawB tR tA tB Hs Hit HdA HdB FR FA FB HR HA HB main.
  assert (Hask : length [txt "x"; txt "3"; txt "2"; txt "5"] <= 1 \/ exists x t more, [txt "x"; txt "3"; txt "2"; txt "5"] = x :: showNat t :: more /\ (Z.of_nat t <= intmax)%Z)
    by (right; exists (txt "x"), 3, [txt "2"; txt "5"]; split; [reflexivity|vm_compute; discriminate]).
  split; intros r.
  - apply (C84_empty_refuted 0%Z Z.mul Z.add (fun x => x) ltV stdsort itmax Hs Hit generate readBin files drawA drawB HdA HdB (txt "prog") (txt "text") (txt "data/row.mtx") (txt "b") [txt "x"; txt "3"; txt "2"; txt "5"] exRowA PropTriMain.exFile tR tB);
      [discriminate|discriminate| |exact FR|exact FB| |exact (exFile_good _ HB)| |exact Hask].
    + exists (txt "data/"), (txt "row"), (txt "mtx"). split; [reflexivity|]. split; [right; exists (txt "data"); reflexivity|]. split; [discriminate|].
      split; [apply (bool_decide_unpack _); vm_compute; exact Logic.I|]. split; [apply (bool_decide_unpack _); vm_compute; exact Logic.I|]. split; [discriminate|]. apply (bool_decide_unpack _); vm_compute; exact Logic.I.
    + split; [exact exRowA_wf|]. split; [discriminate|]. split; [apply Forall_singleton; reflexivity|]. split; [discriminate|]. split; [apply (bool_decide_unpack _); vm_compute; exact Logic.I|exact HR].
    + left. exists 0. split; [cbn; lia|]. intros i Hi. cbn in Hi. apply elem_of_list_singleton in Hi. discriminate.
  - apply (C84_name_refuted 0%Z Z.mul Z.add (fun x => x) ltV stdsort itmax Hs Hit generate readBin files drawA drawB (txt "prog") (txt "text") (txt "k4") (txt "b") [txt "x"; txt "3"; txt "2"; txt "5"] PropTriMain.exFile PropTriMain.exFile tA tB);
      [discriminate|discriminate| |exact FA|exact FB|exact (exFile_good _ HA)|exact (exFile_good _ HB)|exact Hask].
    left. apply (bool_decide_unpack _); vm_compute; exact Logic.I.
Qed.
