(** C79: InnerSpGEMM from the texts of the three files to the printed lines. *)
From Coq Require Import NArith ZArith Ascii String.
From stdpp Require Import numbers list_numbers gmap sorting.
From Verif Require Import BaseProofs WorkModel WorkProofs Assemble MatSpec MatStatements ConvProofs PropReport IoSpec IoModel PropIo PropMat MatModel DriverModel
  HeapImplStuck ObjModel ObjSpec PropNohash MainSpec MainCalls RunSpec RunProofs AllMainModel AllMainSpec AllMainLoops AllMainProofs AllMainCalls.
From Verif Require Import Examples IoModel TriMainSpec PropTriMain PropAllMain SampleModel SampleProofs.
From Verif Require Import Base Spec.
Local Open Scope nat_scope.

(** The loop over the numbers of threads, for a product whose results have [c] entries. *)
Lemma smp_seq {V} (dflt : V) pick null0 (b : abench V) iters c cost (ts : list nat) h : (forall h, h !! pick h = None) -> 1 <= iters -> a_kind b <> KAssign ->
  (forall t, t ∈ ts -> (exists R, a_prod b t 0 R) /\ lost_result null0 (c =? 0) + lost_local null0 (a_kind b) t = cost /\ forall R, a_prod b t 0 R -> nnz R = c /\ RunSpec.shape R /\ rows R <> 0) ->
  (exists r, seqA (smpOne dflt pick null0 b iters) ts h r) /\
  forall r, seqA (smpOne dflt pick null0 b iters) ts h r -> exists h', r = Ok (h', (fun t => mkSLine (a_label b) c t) <$> ts) /\ h ⊆ h' /\ size h' = size h + length ts * ((iters + 1) * cost).
Proof.
  intros Hp Hit Hk H. destruct (seqA_ok (smpOne dflt pick null0 b iters) (fun t ls => ls = [mkSLine (a_label b) c t]) (fun _ => (iters + 1) * cost) ts) with (h := h) as [Hex Hall].
  { intros t h' Hin. destruct (H t Hin) as (K1 & K2 & K3). destruct (smpOne_ok dflt pick null0 Hp b t (c =? 0) Hk K1) with (iters := iters) (h := h') as [O1 O2].
    { intros R HR. destruct (K3 R HR) as (<- & S1 & S2). auto. }
    { exact Hit. }
    split; [exact O1|]. intros r Hr. destruct (O2 r Hr) as (h2 & R & -> & HR & Hsub & Hsz). destruct (K3 R HR) as (EN & _). exists h2. eexists. split; [reflexivity|]. split; [exact Hsub|]. split; [rewrite EN; reflexivity|].
    rewrite Hsz, K2. reflexivity. }
  split; [exact Hex|]. intros r Hr. destruct (Hall r Hr) as (h' & lss & -> & K1 & K2 & K3). exists h'. split; [|split; [exact K1|]].
  - f_equal. f_equal. clear -K2. induction K2 as [|t ls ts lss -> _ IH]; [reflexivity|]. rewrite mjoin_cons, fmap_cons, IH. reflexivity.
  - rewrite K3. f_equal. clear. induction ts as [|t ts IH]; [reflexivity|]. rewrite fmap_cons. simpl in *. lia.
Qed.
Lemma count_exists EA EB EM : exists c, masked_count EA EB EM c.
Proof.
  exists (length (remove_dups (filter (fun x => x ∈ step_pos <$> meeting EA EB) (epos <$> EM)))). eexists. split; [apply NoDup_remove_dups|]. split; [|reflexivity].
  intros x. rewrite elem_of_remove_dups, elem_of_list_filter. tauto.
Qed.

(** For all files with integral values whose sizes match: the program ends with result 0.  It prints twice the number of multiplications and, for each number
    of threads, the number of positions of the mask with a product.  All memory is released, unless no position has a product and malloc(0)
    does not give NULL (finding).  Limits: as for innerSpGEMM_nohash in C74. *)
Theorem C79_report_partial :
  forall V (dflt zero : V) (mul add : V -> V -> V) (ofInt : Z -> V) (pick : gmap nat (ablock V) -> nat) null0 ltV stdsort itmax fA fB fM tA tB tM (threads : option nat) (h : gmap nat (ablock V)),
  (forall h, h !! pick h = None) -> sort_contract ltV stdsort -> (intmax <= Z.of_nat itmax)%Z -> good_file fA tA -> good_file fB tB -> good_file fM tM ->
  mm_cols fA = mm_rows fB -> mm_rows fM = mm_rows fA -> mm_cols fM = mm_cols fB ->
  1 <= mm_rows fA -> (N.of_nat (mm_rows fA + 1) < 2 ^ 17)%N -> (N.of_nat (mm_cols fB) < 2 ^ 24)%N ->
  let EA := means fA in let EB := means fB in let EM := means fM in
  let tnums := match threads with Some t => [t] | None => [4; 8; 16; 32; 64] end in
  (forall e, e ∈ EA -> snd (epos e) < mm_cols fB) ->
  (forall t, t ∈ tnums -> 1 <= t /\ (N.of_nat t < 2 ^ 30)%N /\ length (meeting EA EB) + t <= itmax + 1 /\ length (same_column EA EB) + t <= itmax + 1) ->
  let main := innerMain dflt zero mul add ofInt pick null0 stdsort itmax (Some (Some tA, Some tB, Some tM)) threads h in
  (exists r, main r) /\
  exists c, masked_count EA EB EM c /\
  forall r, main r -> exists h', h ⊆ h' /\
    r = Ok (h', (0%Z, Some (2 * length (meeting EA EB)), (fun t => mkSLine (txt "DotSpGEMM") c t) <$> tnums)) /\
    (c <> 0 \/ null0 = true -> h' = h) /\
    (c = 0 -> null0 = false -> size h' = size h + length tnums * (if decide (EM = []) then 8 else 4)).
Proof.
  intros V dflt zero mul add ofInt pick null0 ltV stdsort itmax fA fB fM tA tB tM threads h Hp Hsort Hit
    (WA1 & WA2 & WA3 & WA4 & WA5 & WA6) (WB1 & WB2 & WB3 & WB4 & WB5 & WB6) (WM1 & WM2 & WM3 & WM4 & WM5 & WM6) D1 D2 D3 Hr HN Hcb EA EB EM tnums Hcol Hts main.
  destruct (input_okA dflt ofInt ltV stdsort itmax fA tA Hsort Hit WA1 WA2 WA3 WA4 WA5 WA6) as (XA & A & IA & XA1 & XA2 & XA3 & XA4 & A1 & A2 & A3 & A4 & A5 & A6 & A7 & A8).
  destruct (input_okA dflt ofInt ltV stdsort itmax fB tB Hsort Hit WB1 WB2 WB3 WB4 WB5 WB6) as (XB & B & IB & XB1 & XB2 & XB3 & XB4 & B1 & B2 & B3 & B4 & B5 & B6 & B7 & B8).
  destruct (input_okA dflt ofInt ltV stdsort itmax fM tM Hsort Hit WM1 WM2 WM3 WM4 WM5 WM6) as (XM & M & IM & XM1 & XM2 & XM3 & XM4 & M1 & M2 & M3 & M4 & M5 & M6 & M7 & M8).
  pose proof (inputS_ok _ _ _ _ _ _ _ IA) as JA. pose proof (inputS_ok _ _ _ _ _ _ _ IB) as JB. pose proof (inputS_ok _ _ _ _ _ _ _ IM) as JM. clear IA IB IM.
  fold EA in A6, A7. fold EB in B6, B7. fold EM in M6, M7.
  assert (Hco : compatible A B M) by (constructor; auto; congruence).
  rewrite <- A2 in Hr, HN. rewrite <- B3 in Hcb.
  assert (Hcol' : forall e, e ∈ EA -> snd (epos e) < cols B) by (rewrite B3; exact Hcol).
  destruct (count_exists EA EB EM) as [c Hcnt].
  assert (Hfl : getFlopCsr A B = Ok (2 * length (meeting EA EB))).
  { rewrite (C58_flop_csr A B A1 B1 ltac:(congruence)). rewrite (mult_file ofInt (triples A) (triples B) EA EB A6 B6). reflexivity. }
  destruct (C33_sorted_flag V A A1) as (r1 & F1 & _). destruct (C33_sorted_flag V B B1) as (r2 & F2 & _). destruct (C33_sorted_flag V M M1) as (r3 & F3 & _).
  destruct (C33_sorted_flag V (csc_tr XB) XB1) as (r4 & F4 & _). cbn [csc_tr rows rowptr colids] in F4.
  set (b := mkABench (str "DotSpGEMM") (KNohash (rows M) (nnz M)) (fun t nz => allNohash dflt zero mul add itmax A M XB t nz)).
  assert (EN : length EM = nnz M) by (rewrite <- (triplesV_length M M1), fmap_length, <- (Permutation_length M6), fmap_length; reflexivity).
  assert (En : EM = [] <-> nnz M = 0) by (rewrite <- EN; split; [intros ->; reflexivity|apply nil_length_inv]).
  assert (Hcb' : c <= nnz M).
  { rewrite <- EN. destruct Hcnt as (P & HNd & HP & <-). rewrite <- (fmap_length epos EM). apply submseteq_length, NoDup_submseteq; [exact HNd|]. intros x Hx. apply HP, Hx. }
  set (cost := if (c =? 0) && negb null0 then if decide (EM = []) then 4 else 2 else 0).
  destruct (smp_seq dflt pick null0 b 1 c cost tnums h Hp ltac:(lia)) as [[r0 Hr0] Hall].
  { discriminate. }
  { intros t Hin. destruct (Hts t Hin) as (T1 & T2 & T3 & T4).
    destruct (call_nohash dflt zero mul add ofInt itmax t A B M XB EA EB EM Hco XB1 B5 A4 B4 M4 XB4 A6 B6 B7 M6 Hr HN Hcb T1 T2 Hit T3 M8 Hcol' T4) as [K1 K2].
    split; [exact K1|]. split.
    - unfold cost, b, lost_result. cbn [a_kind lost_local]. rewrite <- D2, <- M2 in *. destruct (Nat.eqb_spec (rows M) 0) as [E0|_]; [rewrite (co_rows _ _ _ Hco) in E0; lia|].
      destruct (decide (EM = [])) as [E0|E0]; rewrite En in E0; destruct (Nat.eqb_spec c 0), null0; cbn [andb negb]; destruct (Nat.eqb_spec (nnz M) 0); lia.
    - intros R HR. pose proof (K2 R HR) as HA. split; [apply (count_unique EA EB EM); [eapply answer_count, HA|exact Hcnt]|]. eapply answer_shape; [exact Hr|exact HA]. }
  unfold main, innerMain. split.
  - eexists. exists (Ok (XA, A)), (Ok (XB, B)), (Ok (XM, M)). split; [apply JA; reflexivity|]. split; [apply JB; reflexivity|]. split; [apply JM; reflexivity|].
    cbn [bind]. rewrite F1. cbn [bind]. rewrite F2. cbn [bind]. rewrite F4. cbn [bind]. rewrite F3. cbn [bind]. rewrite Hfl. cbn [bind]. exists r0. split; [exact Hr0|reflexivity].
  - exists c. split; [exact Hcnt|]. intros r (rA & rB & rM & H1 & H2 & H3 & Hm). apply JA in H1. apply JB in H2. apply JM in H3. subst rA rB rM.
    cbn [bind] in Hm. rewrite F1 in Hm. cbn [bind] in Hm. rewrite F2 in Hm. cbn [bind] in Hm. rewrite F4 in Hm. cbn [bind] in Hm. rewrite F3 in Hm. cbn [bind] in Hm. rewrite Hfl in Hm. cbn [bind] in Hm.
    destruct Hm as (r1' & Hr1 & ->). destruct (Hall r1' Hr1) as (h' & -> & Hsub & Hsz). cbn [bind]. exists h'. split; [exact Hsub|]. split; [reflexivity|]. split.
    + intros Hc. apply nothing_lost; [exact Hsub|]. rewrite Hsz. unfold cost. destruct Hc as [Hc | ->]; [destruct (Nat.eqb_spec c 0); [contradiction|]; cbn [andb]; lia|rewrite andb_false_r; lia].
    + intros -> ->. rewrite Hsz. unfold cost. cbn [andb negb Nat.eqb]. destruct (decide (EM = [])); reflexivity.
Qed.
Print Assumptions C79_report_partial.

(** Too few arguments: the result is -1, nothing is read or computed. *)
Theorem C79_usage : forall V (dflt zero : V) mul add ofInt pick null0 stdsort itmax threads (h : gmap nat (ablock V)) r,
  innerMain dflt zero mul add ofInt pick null0 stdsort itmax None threads h r <-> r = Ok (h, ((-1)%Z, None, [])).
Proof. reflexivity. Qed.
Print Assumptions C79_usage.

(** Finding: the program does not get to a result if the first matrix has an entry in a column that the second does not have, although the matrices fit. *)
Theorem C79_tall_refuted :
  forall V (dflt zero : V) (mul add : V -> V -> V) (ofInt : Z -> V) (pick : gmap nat (ablock V) -> nat) null0 ltV stdsort itmax fA fB fM tA tB tM t (h : gmap nat (ablock V)) e,
  sort_contract ltV stdsort -> (intmax <= Z.of_nat itmax)%Z -> good_file fA tA -> good_file fB tB -> good_file fM tM -> e ∈ means fA -> mm_cols fB <= snd (epos e) ->
  forall y, ~ innerMain dflt zero mul add ofInt pick null0 stdsort itmax (Some (Some tA, Some tB, Some tM)) (Some t) h (Ok y).
Proof.
  intros V dflt zero mul add ofInt pick null0 ltV stdsort itmax fA fB fM tA tB tM t h e Hsort Hit
    (WA1 & WA2 & WA3 & WA4 & WA5 & WA6) (WB1 & WB2 & WB3 & WB4 & WB5 & WB6) (WM1 & WM2 & WM3 & WM4 & WM5 & WM6) He Hlt y.
  destruct (input_okA dflt ofInt ltV stdsort itmax fA tA Hsort Hit WA1 WA2 WA3 WA4 WA5 WA6) as (XA & A & IA & XA1 & XA2 & XA3 & XA4 & A1 & A2 & A3 & A4 & A5 & A6 & A7 & A8).
  destruct (input_okA dflt ofInt ltV stdsort itmax fB tB Hsort Hit WB1 WB2 WB3 WB4 WB5 WB6) as (XB & B & IB & XB1 & XB2 & XB3 & XB4 & B1 & B2 & B3 & B4 & B5 & B6 & B7 & B8).
  destruct (input_okA dflt ofInt ltV stdsort itmax fM tM Hsort Hit WM1 WM2 WM3 WM4 WM5 WM6) as (XM & M & IM & XM1 & XM2 & XM3 & XM4 & M1 & M2 & M3 & M4 & M5 & M6 & M7 & M8).
  pose proof (inputS_ok _ _ _ _ _ _ _ IA) as JA. pose proof (inputS_ok _ _ _ _ _ _ _ IB) as JB. pose proof (inputS_ok _ _ _ _ _ _ _ IM) as JM.
  intros (rA & rB & rM & H1 & H2 & H3 & Hm). apply JA in H1. apply JB in H2. apply JM in H3. subst rA rB rM. cbn [bind] in Hm.
  destruct (sortedFlag (rows A) _ _); [|discriminate]. cbn [bind] in Hm. destruct (sortedFlag (rows B) _ _); [|discriminate]. cbn [bind] in Hm.
  destruct (sortedFlag (c_cols XB) _ _); [|discriminate]. cbn [bind] in Hm. destruct (sortedFlag (rows M) _ _); [|discriminate]. cbn [bind] in Hm.
  destruct (getFlopCsr A B) as [fl|]; [|discriminate]. cbn [bind] in Hm. destruct Hm as (r1 & Hr1 & E1). destruct r1 as [z|]; [|discriminate].
  destruct (seqA_called _ _ _ _ t Hr1) as (h1 & z1 & r2 & Hr2 & Hm2). { left. }
  destruct r2 as [s2|]; [|discriminate]. destruct Hr2 as (r3 & (R & HR & _) & _). cbn [a_prod] in HR. destruct HR as [_ (nts & _ & HR)].
  assert (Hin : (fst (epos e), snd (epos e), ofInt (snd e)) ∈ triples A).
  { rewrite <- A6. apply elem_of_list_fmap. exists e. split; [|exact He]. destruct e as [[i j] v]. reflexivity. }
  apply triplesV_elem in Hin as [Hi Hj].
  eapply (C47_tall_refuted V dflt zero mul add); [exact A1|exact XB1|exact Hi| |rewrite XB3; exact Hlt|eexists; exact HR].
  apply elem_of_list_fmap. eexists. split; [|exact Hj]. reflexivity.
Qed.
Print Assumptions C79_tall_refuted.

(** The complete graph on four vertices as all three files: 36 multiplications, 12 positions for each of the five numbers of threads, everything is released. *)
Example C79_example : forall pick null0 ltV stdsort itmax tA tB tM (h : gmap nat (ablock Z)),
  (forall h, h !! pick h = None) -> sort_contract ltV stdsort -> (intmax <= Z.of_nat itmax)%Z -> file_text PropTriMain.exFile tA -> file_text PropTriMain.exFile tB -> file_text PropTriMain.exFile tM ->
  let main := innerMain 0%Z 0%Z Z.mul Z.add (fun x => x) pick null0 stdsort itmax (Some (Some tA, Some tB, Some tM)) None h in
  (exists r, main r) /\ forall r, main r -> r = Ok (h, (0%Z, Some 72, mkSLine (txt "DotSpGEMM") 12 <$> [4; 8; 16; 32; 64])).
Proof.
  intros pick null0 ltV stdsort itmax tA tB tM h Hp Hs Hit HA HB HM main. assert (Hi : 200 <= itmax) by (unfold intmax in Hit; lia). set (F := PropTriMain.exFile) in *.
  assert (Em : length (meeting (means F) (means F)) = 36) by (vm_compute; reflexivity).
  assert (Es : length (same_column (means F) (means F)) = 36) by (vm_compute; reflexivity).
  destruct (C79_report_partial Z 0%Z 0%Z Z.mul Z.add (fun x => x) pick null0 ltV stdsort itmax F F F tA tB tM None h Hp Hs Hit (exFile_good _ HA) (exFile_good _ HB) (exFile_good _ HM) eq_refl eq_refl eq_refl) as [Hex (c & Hc & Hall)];
    [unfold F; cbn [PropTriMain.exFile mm_rows]; lia|reflexivity|reflexivity| | |].
  { intros e He. assert (Hpos : Forall (fun e : nat * nat * Z => snd (epos e) < mm_cols F) (means F)) by (apply (bool_decide_unpack _); vm_compute; exact Logic.I). rewrite Forall_forall in Hpos. apply Hpos, He. }
  { intros t Ht. rewrite Em, Es. repeat (apply elem_of_cons in Ht as [->|Ht]; [split; [lia|]; split; [reflexivity|]; lia|]). inversion Ht. }
  split; [exact Hex|]. assert (c = 12) as ->.
  { apply (count_unique (means F) (means F) (means F)); [exact Hc|]. exists (epos <$> means F). split; [apply (bool_decide_unpack _); vm_compute; exact Logic.I|]. split; [|vm_compute; reflexivity]. intros x. split; [|tauto].
    intros Hx. split; [exact Hx|]. assert (G : Forall (fun x => x ∈ step_pos <$> meeting (means F) (means F)) (epos <$> means F)) by (apply (bool_decide_unpack _); vm_compute; exact Logic.I).
    rewrite Forall_forall in G. apply G, Hx. }
  intros r Hr. destruct (Hall r Hr) as (h' & _ & -> & Hh & _). rewrite Hh by (left; lia). rewrite Em. reflexivity.
Qed.
(** The hypotheses of [C79_tall_refuted]: an entry at (1, 2) against one at (2, 1), with a mask of one position. *)
Definition exColB : mmfile := mkMM Integer SymNo [] 2 1 [(2, 1, 7%Z, [])].
Definition exOneM : mmfile := mkMM Integer SymNo [] 1 1 [(1, 1, 1%Z, [])].
Example C79_tall_example : good_file exRowA (render exRowA) /\ good_file exColB (render exColB) /\ good_file exOneM (render exOneM) /\
  mm_cols exRowA = mm_rows exColB /\ mm_rows exOneM = mm_rows exRowA /\ mm_cols exOneM = mm_cols exColB /\ (0, 1, 5%Z) ∈ means exRowA /\ mm_cols exColB <= 1 /\
  masked_count (means exRowA) (means exColB) (means exOneM) 1.
Proof.
  assert (G : forall f, mm_wf f -> mm_symm f = SymNo -> values_integral f -> NoDup (epos <$> means f) -> good_file f (render f)).
  { intros f H1 H2 H3 H4. split; [exact H1|]. rewrite H2. split; [discriminate|]. split; [exact H3|]. split; [discriminate|]. split; [exact H4|]. left. exists []. rewrite app_nil_r. reflexivity. }
  assert (W1 : mm_wf exColB).
  { unfold mm_wf. split; [apply Forall_nil; exact Logic.I|split; [|split; [|split; [|split]]]].
    - apply Forall_forall. intros l Hl. apply Nat.leb_le. revert l Hl. rewrite <- Forall_forall.
      cbn [exColB mm_entries mm_field fmap list_fmap]. repeat (apply Forall_cons; split; [vm_compute; reflexivity|]). apply Forall_nil; exact Logic.I.
    - vm_compute. discriminate.
    - vm_compute. discriminate.
    - vm_compute. discriminate.
    - cbn [exColB mm_entries mm_rows mm_cols]. repeat (apply Forall_cons; split; [split; [lia|split; [lia|split; [vm_compute; discriminate|left; reflexivity]]]|]). apply Forall_nil; exact Logic.I. }
  assert (W2 : mm_wf exOneM).
  { unfold mm_wf. split; [apply Forall_nil; exact Logic.I|split; [|split; [|split; [|split]]]].
    - apply Forall_forall. intros l Hl. apply Nat.leb_le. revert l Hl. rewrite <- Forall_forall.
      cbn [exOneM mm_entries mm_field fmap list_fmap]. repeat (apply Forall_cons; split; [vm_compute; reflexivity|]). apply Forall_nil; exact Logic.I.
    - vm_compute. discriminate.
    - vm_compute. discriminate.
    - vm_compute. discriminate.
    - cbn [exOneM mm_entries mm_rows mm_cols]. repeat (apply Forall_cons; split; [split; [lia|split; [lia|split; [vm_compute; discriminate|left; reflexivity]]]|]). apply Forall_nil; exact Logic.I. }
  split; [apply C74_mca_example|]. split; [apply G; [exact W1|reflexivity|repeat constructor|apply (bool_decide_unpack _); vm_compute; exact Logic.I]|].
  split; [apply G; [exact W2|reflexivity|repeat constructor|apply (bool_decide_unpack _); vm_compute; exact Logic.I]|].
  split; [reflexivity|]. split; [reflexivity|]. split; [reflexivity|]. split; [vm_compute; left|]. split; [cbn; lia|].
  exists [(0, 0)]. split; [apply NoDup_singleton|]. split; [|reflexivity]. intros x.
  change (epos <$> means exOneM) with [(0, 0)]. replace (step_pos <$> meeting (means exRowA) (means exColB)) with [(0, 0)] by (vm_compute; reflexivity). tauto.
Qed.
