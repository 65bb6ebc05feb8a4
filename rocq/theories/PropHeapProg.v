(** C83: HeapSpGEMM (the program) from the arguments and the texts of the files to the printed lines. *)
From Coq Require Import NArith ZArith Ascii String Sorted.
From stdpp Require Import numbers list_numbers gmap sorting.
From Verif Require Import BaseProofs WorkModel WorkProofs Assemble MatSpec MatStatements ConvProofs PropReport IoSpec IoModel PropIo PropMat MatModel DriverModel ReportModel
  MainSpec MainCalls AllMainModel AllMainSpec AllMainProofs AllMainCalls HeapCscModel PropHeapCsc.
From Verif Require IoProofs.
From Verif Require Import Examples IoModel TriMainSpec PropTriMain PropAllMain SampleModel SampleProofs PropSample SpaMainModel SpaMainSpec SpaMainProofs PropSpaMain.
From Verif Require Import GenModel GenProofs PropGen HashMainModel HashMainProofs PropHashMain HashProdModel PropHashProd HeapProgModel HeapProgProofs.
From Verif Require Import Base Spec.
Local Open Scope nat_scope.

Section C83.
Context {V : Type} (dflt : V) (mul add : V -> V -> V) (ofInt : Z -> V) (ltV : V -> V -> Prop) (stdsort : list (nat * V) -> list (nat * V)) (itmax : nat).
Context (Hsort : sort_contract ltV stdsort) (Hit : (intmax <= Z.of_nat itmax)%Z).
Context (generate : bool -> Z -> Z -> res (csc V * csc V)) (readBin : option text -> res (option (csc V)) -> Prop) (files : text -> option text).
Notation main := (heapMain dflt mul add ofInt stdsort generate readBin files itmax).
Notation setInputs := (setInputs dflt ofInt stdsort (Z.of_nat itmax) generate readBin files).
Notation flags rI := (' (A, B) <- rI ;; sA <- sortedFlag (c_cols A) (colptr A) (rowids A) ;; sB <- sortedFlag (c_cols B) (colptr B) (rowids B) ;; Ok (A, B, sA, sB)).

Lemma flag_true (X : csc V) : wf_csc X -> sorted_cols X -> sortedFlag (c_cols X) (colptr X) (rowids X) = Ok true.
Proof using Type.
  clear. intros HX HS. destruct (C33_sorted_flag V (csc_tr X) HX) as (r & E & Hr). cbn [csc_tr rows rowptr colids] in E. rewrite E. f_equal. apply Hr. intros i Hi. cbn in Hi. specialize (HS i Hi).
  unfold row_cols, col_entries in *. clear -HS. induction HS as [|x l _ IH Hx]; constructor; [exact IH|]. eapply Forall_impl; [exact Hx|]. intros y Hy. cbn in Hy. lia.
Qed.
(** What reaches the loop. *)
Lemma loaded3 a0 mode nA nB rest fA fB tA tB : mode <> txt "gen" -> mode <> txt "binary" -> files nA = Some tA -> files nB = Some tB -> good_file fA tA -> good_file fB tB ->
  exists XA XB A B, (forall rI, setInputs (a0 :: mode :: nA :: nB :: rest) rI <-> rI = (_ <- stem nA ;; Ok (XA, XB))) /\
    wf_csc XA /\ c_rows XA = mm_rows fA /\ c_cols XA = mm_cols fA /\ sorted_cols XA /\ wf_csc XB /\ c_rows XB = mm_rows fB /\ c_cols XB = mm_cols fB /\ sorted_cols XB /\
    wf A /\ sorted_rows A /\ same_matrix A XA /\ wf B /\ sorted_rows B /\ same_matrix B XB /\
    conv ofInt <$> means fA ≡ₚ triples A /\ conv ofInt <$> means fB ≡ₚ triples B /\ conv ofInt <$> means fA ≡ₚ triples_csc XA /\ conv ofInt <$> means fB ≡ₚ triples_csc XB.
Proof using Hsort Hit.
  intros Hg Hb FA FB (WA1 & WA2 & WA3 & WA4 & WA5 & WA6) (WB1 & WB2 & WB3 & WB4 & WB5 & WB6).
  destruct (input_okA dflt ofInt ltV stdsort itmax fA tA Hsort Hit WA1 WA2 WA3 WA4 WA5 WA6) as (XA & A & IA & XA1 & XA2 & XA3 & XA4 & A1 & A2 & A3 & A4 & A5 & A6 & A7 & A8).
  destruct (input_okA dflt ofInt ltV stdsort itmax fB tB Hsort Hit WB1 WB2 WB3 WB4 WB5 WB6) as (XB & B & IB & XB1 & XB2 & XB3 & XB4 & B1 & B2 & B3 & B4 & B5 & B6 & B7 & B8).
  destruct (read_of_inputS _ _ _ _ _ _ _ (inputS_ok _ _ _ _ _ _ _ IA)) as [RA EA]. destruct (read_of_inputS _ _ _ _ _ _ _ (inputS_ok _ _ _ _ _ _ _ IB)) as [RB EB].
  exists XA, XB, A, B. split; [|auto 30]. intros rI. unfold GenModel.setInputs, arg. cbn [get lookup list_lookup bind]. unfold sameText. rewrite !bool_decide_eq_false_2 by assumption. rewrite FA, FB. split.
  - intros (rA & rB & H1 & H2 & ->). apply RA in H1. apply RB in H2. subst. reflexivity.
  - intros ->. exists (Ok XA), (Ok XB). split; [apply RA; reflexivity|]. split; [apply RB; reflexivity|]. reflexivity.
Qed.
Lemma plain_stem nA : plain_name nA -> exists s, stem nA = Ok s.
Proof using Type. clear. intros (dir & s & ext & -> & N1 & N2 & N3 & N4 & N5 & N6). eexists. apply (stem_ok dir s ext N1 N2 N3 N4 N5 N6). Qed.

(** For two files with integral values whose sizes fit: the program has exactly one outcome.  It ends with result 0, says that both matrices are
    sorted, prints twice the number of multiplications and for each number of threads the number of positions of the product, and loses no memory. *)
Theorem C83_report_partial a0 mode nA nB rest fA fB tA tB tnums c :
  mode <> txt "gen" -> mode <> txt "binary" -> plain_name nA -> files nA = Some tA -> files nB = Some tB -> good_file fA tA -> good_file fB tB ->
  mm_cols fA = mm_rows fB -> 1 <= mm_cols fB -> (N.of_nat (mm_cols fB + 1) < 2 ^ 17)%N -> asked2 rest tnums -> (forall t, t ∈ tnums -> 1 <= t) -> product_count (means fA) (means fB) c ->
  forall r, main (a0 :: mode :: nA :: nB :: rest) r <->
    r = Ok (0%Z, Some (true, true, 2 * length (meeting (means fA) (means fB))), (fun t => (c, t)) <$> tnums, 0).
Proof.
  intros Hg Hb Hn FA FB GA GB Hsq Hc1 HN Hask Hts Hc r.
  destruct (loaded3 a0 mode nA nB rest fA fB tA tB Hg Hb FA FB GA GB) as (XA & XB & A & B & HI & XA1 & XA2 & XA3 & XA4 & XB1 & XB2 & XB3 & XB4 & A1 & A2 & A3 & B1 & B2 & B3 & PA & PB & QA & QB).
  destruct (plain_stem nA Hn) as [s0 Hst]. rewrite Hst in HI. cbn [bind] in HI.
  destruct (C49_heap_csc_partial V mul add dflt XA XB XA1 XB1 ltac:(congruence) XA4 ltac:(congruence) ltac:(congruence)) as (C & HY & HW & Hr & Hcc & HF & _).
  assert (D : forall (X : csr V), sorted_rows X -> distinct_rows X) by (intros X HX i Hi; apply sorted_NoDup, HX, Hi).
  assert (Hin : cols A = rows B) by (rewrite (sm_cols _ _ A3), (sm_rows _ _ B3); congruence).
  pose proof (count_C mul add ofInt XA XB C A B (means fA) (means fB) XB1 A1 B1 A3 B3 XA4 XB4 (D _ A2) (D _ B2) Hin PA PB HW Hr Hcc HF) as Hcnt.
  pose proof (product_unique _ _ _ _ Hc Hcnt) as ->.
  unfold heapMain. cbn [length Nat.ltb Nat.leb]. rewrite (asked2_threads a0 mode nA nB rest tnums Hask).
  assert (EF : flags (Ok (XA, XB)) = Ok (XA, XB, true, true)) by (cbn [bind]; rewrite (flag_true XA XA1 XA4); cbn [bind]; rewrite (flag_true XB XB1 XB4); reflexivity).
  assert (HG : forall f, getFlopCsc_always XA XB f <-> f = 2 * length (meeting (means fA) (means fB))).
  { intros f. rewrite (C58_flop_csc XA XB XA1 XB1 ltac:(congruence)). rewrite (mult_file ofInt _ _ _ _ QA QB). reflexivity. }
  assert (HL := heapAll_ok dflt mul add itmax 10 XA XB C HY HW ltac:(rewrite Hcc, XB3; exact Hc1) ltac:(clear; lia) tnums). split.
  - intros (rI & HrI & Hm). apply HI in HrI. subst rI. rewrite EF in Hm. destruct Hm as (f & lines & lost & H1 & H2 & ->). apply HG in H1. apply HL in H2 as [-> ->]; [|exact Hts]. subst f. reflexivity.
  - intros ->. exists (Ok (XA, XB)). split; [apply HI; reflexivity|]. rewrite EF. eexists _, _, _. split; [apply HG; reflexivity|]. split; [apply HL; [exact Hts|split; reflexivity]|]. reflexivity.
Qed.

(** Too few arguments: the result is -1, nothing is read or computed. *)
Theorem C83_usage argv r : length argv < 4 -> main argv r <-> r = Ok ((-1)%Z, None, [], 0).
Proof using Type. clear. intros H. unfold heapMain. apply Nat.ltb_lt in H. rewrite H. reflexivity. Qed.

(** Finding: the splitting of the first file name, as in C81. *)
Theorem C83_name_refuted a0 mode nA nB rest fA fB tA tB tnums r :
  mode <> txt "gen" -> mode <> txt "binary" -> ("."%char ∉ nA \/ (exists n, nA = "."%char :: n /\ "."%char ∉ n) \/ exists u n, nA = (u ++ ["."; "."] ++ n)%char /\ "."%char ∉ n /\ n <> []) ->
  files nA = Some tA -> files nB = Some tB -> good_file fA tA -> good_file fB tB ->
  asked2 rest tnums -> main (a0 :: mode :: nA :: nB :: rest) r <-> r = Err OutOfBounds.
Proof.
  intros Hg Hb Hn FA FB GA GB Hask.
  destruct (loaded3 a0 mode nA nB rest fA fB tA tB Hg Hb FA FB GA GB) as (XA & XB & A & B & HI & _).
  assert (Hst : stem nA = Err OutOfBounds) by (destruct Hn as [Hn|[(n & -> & Hn)|(u & n & -> & Hn & Hnn)]]; [apply stem_nodot, Hn|apply stem_dot, Hn|apply stem_dots; assumption]).
  rewrite Hst in HI. cbn [bind] in HI. unfold heapMain. cbn [length Nat.ltb Nat.leb]. rewrite (asked2_threads a0 mode nA nB rest tnums Hask). split.
  - intros (rI & HrI & Hm). apply HI in HrI. subst rI. exact Hm.
  - intros ->. exists (Err OutOfBounds). split; [apply HI; reflexivity|]. reflexivity.
Qed.

(** Finding: a second matrix without columns, or with 2^17 - 1 columns or more, gives no result (the writes of heap_mult.h 65-66; the read past
    col_nz in the scan of 193, with any number of threads up to the number of cells). *)
Theorem C83_columns_refuted a0 mode nA nB rest fA fB tA tB tnums t :
  mode <> txt "gen" -> mode <> txt "binary" -> plain_name nA -> files nA = Some tA -> files nB = Some tB -> good_file fA tA -> good_file fB tB ->
  asked2 rest tnums -> t ∈ tnums -> mm_cols fB = 0 \/ (2 ^ 17 <= N.of_nat (mm_cols fB + 1))%N ->
  forall r, ~ main (a0 :: mode :: nA :: nB :: rest) r.
Proof.
  intros Hg Hb Hn FA FB GA GB Hask Hin Hcol r Hm.
  destruct (loaded3 a0 mode nA nB rest fA fB tA tB Hg Hb FA FB GA GB) as (XA & XB & A & B & HI & XA1 & XA2 & XA3 & XA4 & XB1 & XB2 & XB3 & XB4 & _).
  destruct (plain_stem nA Hn) as [s0 Hst]. rewrite Hst in HI. cbn [bind] in HI.
  unfold heapMain in Hm. cbn [length Nat.ltb Nat.leb] in Hm. rewrite (asked2_threads a0 mode nA nB rest tnums Hask) in Hm.
  destruct Hm as (rI & HrI & Hm). apply HI in HrI. subst rI. cbn [bind] in Hm. rewrite (flag_true XA XA1 XA4) in Hm. cbn [bind] in Hm. rewrite (flag_true XB XB1 XB4) in Hm. cbn [bind] in Hm.
  destruct Hm as (f & lines & lost & _ & H & _). clear -H Hin Hcol XB3.
  revert lines lost H. induction tnums as [|t' ts IH]; intros lines lost H; [inversion Hin|]. destruct H as (line & l1 & lines2 & l2 & H1 & H2 & _).
  apply elem_of_cons in Hin as [<-|Hin]; [|exact (IH Hin _ _ H2)]. destruct H1 as (C1 & l3 & (Hall & _) & _).
  assert (E1 : threeObjs XA XB newCsc !! 1 = Some (OCsc XB)) by (unfold threeObjs; rewrite lookup_insert_ne by lia; apply lookup_insert).
  destruct Hcol as [H0|HN].
  - apply (C49_zero_columns_refuted V mul add dflt (2 * itmax + 1) 1 t 0 1 2 XB _ E1); [congruence|apply Hall].
  - apply (C49_many_columns_refuted V mul add dflt (2 * itmax + 1) 1 t 0 1 2 XB _ E1); [lia|congruence|lia|apply Hall].
Qed.
End C83.
Print Assumptions C83_report_partial.
Print Assumptions C83_usage.
Print Assumptions C83_name_refuted.
Print Assumptions C83_columns_refuted.

(** The complete graph on four vertices as both files: 36 multiplications, 16 positions. *)
Example C83_example : forall ltV stdsort itmax generate readBin (files : text -> option text) tA tB,
  sort_contract ltV stdsort -> (intmax <= Z.of_nat itmax)%Z ->
  files (txt "data/k4.mtx") = Some tA -> files (txt "b") = Some tB -> file_text PropTriMain.exFile tA -> file_text PropTriMain.exFile tB ->
  let main := heapMain 0%Z Z.mul Z.add (fun x => x) stdsort generate readBin files itmax in
  (forall r, main [txt "prog"; txt "text"; txt "data/k4.mtx"; txt "b"] r <-> r = Ok (0%Z, Some (true, true, 72), [(16, 32); (16, 64)], 0)) /\
  (forall r, main [txt "prog"; txt "text"; txt "data/k4.mtx"; txt "b"; txt "x"; txt "3"] r <-> r = Ok (0%Z, Some (true, true, 72), [(16, 3)], 0)).
Proof.
  intros ltV stdsort itmax generate readBin files tA tB Hs Hit FA FB HA HB main. set (F := PropTriMain.exFile) in *.
  assert (Em : length (meeting (means F) (means F)) = 36) by (vm_compute; reflexivity).
  assert (Hc : product_count (means F) (means F) 16).
  { exists (list_prod (seq 0 4) (seq 0 4)). split; [apply (bool_decide_unpack _); vm_compute; exact Logic.I|]. split; [|reflexivity]. intros x. split; revert x; rewrite <- Forall_forall; apply (bool_decide_unpack _); vm_compute; exact Logic.I. }
  assert (HP : plain_name (txt "data/k4.mtx")).
  { exists (txt "data/"), (txt "k4"), (txt "mtx"). split; [reflexivity|]. split; [right; exists (txt "data"); reflexivity|]. split; [discriminate|].
    split; [apply (bool_decide_unpack _); vm_compute; exact Logic.I|]. split; [apply (bool_decide_unpack _); vm_compute; exact Logic.I|]. split; [discriminate|]. apply (bool_decide_unpack _); vm_compute; exact Logic.I. }
  unfold main. split; intros r.
  - rewrite (C83_report_partial 0%Z Z.mul Z.add (fun x => x) ltV stdsort itmax Hs Hit generate readBin files (txt "prog") (txt "text") (txt "data/k4.mtx") (txt "b") [] F F tA tB [32; 64] 16);
      [rewrite Em; reflexivity|discriminate|discriminate|exact HP|exact FA|exact FB|exact (exFile_good _ HA)|exact (exFile_good _ HB)|reflexivity|unfold F; cbn [PropTriMain.exFile mm_cols]; lia|reflexivity| | |exact Hc].
    + left. split; [simpl; lia|reflexivity].
    + intros t Ht. repeat (apply elem_of_cons in Ht as [->|Ht]; [lia|]). inversion Ht.
  - rewrite (C83_report_partial 0%Z Z.mul Z.add (fun x => x) ltV stdsort itmax Hs Hit generate readBin files (txt "prog") (txt "text") (txt "data/k4.mtx") (txt "b") [txt "x"; txt "3"] F F tA tB [3] 16);
      [rewrite Em; reflexivity|discriminate|discriminate|exact HP|exact FA|exact FB|exact (exFile_good _ HA)|exact (exFile_good _ HB)|reflexivity|unfold F; cbn [PropTriMain.exFile mm_cols]; lia|reflexivity| | |exact Hc].
    + right. exists (txt "x"), 3, []. split; [reflexivity|]. split; [vm_compute; discriminate|reflexivity].
    + intros t Ht. apply elem_of_list_singleton in Ht as ->. lia.
Qed.
(** The hypotheses of the findings: a file of no columns; the names of [C81_name_example]. *)
Definition exNoCols : mmfile := mkMM Integer SymNo [] 1 0 [].
Example C83_columns_example : good_file exNoCols (render exNoCols) /\ mm_cols exNoCols = 0 /\ mm_rows exNoCols = mm_cols exOneM.
Proof.
  split; [|split; reflexivity]. split; [|split; [discriminate|]; split; [constructor|]; split; [discriminate|]; split; [constructor|]; left; exists []; rewrite app_nil_r; reflexivity].
  unfold mm_wf. split; [apply Forall_nil; exact Logic.I|split; [|split; [|split; [|split]]]].
  - apply Forall_forall. intros l Hl. apply Nat.leb_le. revert l Hl. rewrite <- Forall_forall. cbn [exNoCols mm_entries mm_field fmap list_fmap]. repeat (apply Forall_cons; split; [vm_compute; reflexivity|]). apply Forall_nil; exact Logic.I.
  - vm_compute. discriminate.
  - vm_compute. discriminate.
  - vm_compute. discriminate.
  - apply Forall_nil; exact Logic.I.
Qed.
