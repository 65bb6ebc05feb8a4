(** C80: MaskedSPASpGEMM from the texts of the three files to the printed lines. *)
From Coq Require Import NArith ZArith Ascii String.
From stdpp Require Import numbers list_numbers gmap sorting.
From Verif Require Import BaseProofs WorkModel WorkProofs Assemble MatSpec MatStatements ConvProofs PropReport IoSpec IoModel PropIo PropMat MatModel DriverModel
  HeapImplStuck ObjModel ObjSpec PropSpa MainSpec MainCalls RunSpec RunProofs AllMainModel AllMainSpec AllMainLoops AllMainProofs AllMainCalls.
From Verif Require Import Examples IoModel TriMainSpec PropTriMain PropAllMain SampleModel SampleProofs PropSample SpaMainModel SpaMainSpec SpaMainProofs.
From Verif Require Import Base Spec.
Local Open Scope nat_scope.

(** For all files with integral values whose sizes match and whose product has at least ten positions: the program ends with result 0.  It
    prints twice the number of multiplications; for each number of threads ten values of the product at different positions, the number of
    its positions and the number of those in the mask; then for each number of threads the number of positions of the mask with a product.
    All memory is released, unless no position of the mask has a product and malloc(0) does not give NULL (finding). *)
Theorem C80_report_partial :
  forall V (dflt : V) (mul add : V -> V -> V) (ofInt : Z -> V) (pick : gmap nat (ablock V) -> nat) null0 ltV stdsort itmax fA fB fM tA tB tM (threads : option nat) (h : gmap nat (ablock V)) c cm,
  (forall h, h !! pick h = None) -> sort_contract ltV stdsort -> (intmax <= Z.of_nat itmax)%Z -> good_file fA tA -> good_file fB tB -> good_file fM tM ->
  mm_cols fA = mm_rows fB -> mm_rows fM = mm_rows fA -> mm_cols fM = mm_cols fB ->
  1 <= mm_rows fA -> (N.of_nat (mm_rows fA + 1) < 2 ^ 17)%N -> (N.of_nat (mm_cols fB) < 2 ^ 24)%N ->
  let EA := means fA in let EB := means fB in let EM := means fM in
  let tnums := match threads with Some t => [t] | None => [4; 8; 16; 32; 64] end in
  (forall t, t ∈ tnums -> 1 <= t /\ (N.of_nat t < 2 ^ 30)%N /\ length (meeting EA EB) + t <= itmax + 1) ->
  product_count EA EB c -> 10 <= c -> masked_count EA EB EM cm ->
  let main := spaMain dflt mul add ofInt pick null0 stdsort itmax (Some (Some tA, Some tB, Some tM)) threads h in
  (exists r, main r) /\
  forall r, main r -> exists h' firsts, h ⊆ h' /\
    r = Ok (h', (0%Z, Some (2 * length (meeting EA EB)), zip_with (fun first t => mkHLine first c t cm) firsts tnums, (fun t => mkSLine (txt "MaskedSPASpGEMM") cm t) <$> tnums)) /\
    length firsts = length tnums /\ Forall (fun first => length first = 10 /\ some_values mul add ofInt EA EB first) firsts /\
    (cm <> 0 \/ null0 = true -> h' = h) /\
    (cm = 0 -> null0 = false -> size h' = size h + length tnums * 6).
Proof.
  intros V dflt mul add ofInt pick null0 ltV stdsort itmax fA fB fM tA tB tM threads h c cm Hp Hsort Hit
    (WA1 & WA2 & WA3 & WA4 & WA5 & WA6) (WB1 & WB2 & WB3 & WB4 & WB5 & WB6) (WM1 & WM2 & WM3 & WM4 & WM5 & WM6) D1 D2 D3 Hr HN Hcb EA EB EM tnums Hts Hc H10 Hcm main.
  destruct (input_okA dflt ofInt ltV stdsort itmax fA tA Hsort Hit WA1 WA2 WA3 WA4 WA5 WA6) as (XA & A & IA & XA1 & XA2 & XA3 & XA4 & A1 & A2 & A3 & A4 & A5 & A6 & A7 & A8).
  destruct (input_okA dflt ofInt ltV stdsort itmax fB tB Hsort Hit WB1 WB2 WB3 WB4 WB5 WB6) as (XB & B & IB & XB1 & XB2 & XB3 & XB4 & B1 & B2 & B3 & B4 & B5 & B6 & B7 & B8).
  destruct (input_okA dflt ofInt ltV stdsort itmax fM tM Hsort Hit WM1 WM2 WM3 WM4 WM5 WM6) as (XM & M & IM & XM1 & XM2 & XM3 & XM4 & M1 & M2 & M3 & M4 & M5 & M6 & M7 & M8).
  pose proof (inputS_ok _ _ _ _ _ _ _ IA) as JA. pose proof (inputS_ok _ _ _ _ _ _ _ IB) as JB. pose proof (inputS_ok _ _ _ _ _ _ _ IM) as JM. clear IA IB IM.
  fold EA in A6, A7. fold EB in B6, B7. fold EM in M6, M7.
  assert (Hco : compatible A B M) by (constructor; auto; congruence).
  rewrite <- A2 in Hr, HN. rewrite <- B3 in Hcb.
  assert (Hfl : getFlopCsr A B = Ok (2 * length (meeting EA EB))).
  { rewrite (C58_flop_csr A B A1 B1 ltac:(congruence)). rewrite (mult_file ofInt (triples A) (triples B) EA EB A6 B6). reflexivity. }
  destruct (C33_sorted_flag V A A1) as (r1 & F1 & _). destruct (C33_sorted_flag V B B1) as (r2 & F2 & _). destruct (C33_sorted_flag V M M1) as (r3 & F3 & _).
  set (b := mkABench (str "MaskedSPASpGEMM") KOver (fun t _ => allSpa dflt mul add itmax A B M t)).
  set (k1 := if (cm =? 0) && negb null0 then 2 else 0).
  destruct (seqA_ok (hashOne dflt mul add pick null0 stdsort itmax 1 A B M) (fun t ls => exists first, ls = [mkHLine first c t cm] /\ length first = 10 /\ some_values mul add ofInt EA EB first) (fun _ => k1) tnums) with (h := h) as [[r0 Hr0] Hall].
  { intros t h' Hin. destruct (Hts t Hin) as (T1 & T2 & T3).
    destruct (hashOne_ok dflt mul add ofInt pick null0 stdsort ltV itmax Hp A B M EA EB EM Hco M4 A6 B6 M6 Hr HN ltac:(lia) Hit Hsort t c cm T1 T3 Hc Hcm 1 h' ltac:(lia) H10) as [O1 O2].
    split; [exact O1|]. intros r Hr'. destruct (O2 r Hr') as (h2 & first & -> & K1 & K2 & K3 & K4). exists h2. eexists. split; [reflexivity|]. split; [exact K1|]. split; [|exact K4]. eauto. }
  assert (Hseq : forall h, (exists r, seqA (smpOne dflt pick null0 b 1) tnums h r) /\
    forall r, seqA (smpOne dflt pick null0 b 1) tnums h r -> exists h', r = Ok (h', (fun t => mkSLine (a_label b) cm t) <$> tnums) /\ h ⊆ h' /\ size h' = size h + length tnums * ((1 + 1) * k1)).
  { intros h1. apply smp_seq; [exact Hp|lia|discriminate|]. intros t Hin. destruct (Hts t Hin) as (T1 & T2 & T3).
    destruct (call_spa dflt dflt mul add ofInt itmax t A B M EA EB EM Hco A6 B6 M6 Hr HN Hcb T1 T2 Hit T3 M8) as [K1 K2].
    split; [exact K1|]. split; [unfold k1, b, lost_result; cbn [a_kind lost_local]; lia|].
    intros R HR. pose proof (K2 R HR) as HA. split; [apply (count_unique EA EB EM); [eapply answer_count, HA|exact Hcm]|]. eapply answer_shape; [exact Hr|exact HA]. }
  unfold main, spaMain. split.
  - destruct (Hall r0 Hr0) as (h1 & lss & -> & _). destruct (Hseq h1) as [[r4 Hr4] _].
    eexists. exists (Ok (XA, A)), (Ok (XB, B)), (Ok (XM, M)). split; [apply JA; reflexivity|]. split; [apply JB; reflexivity|]. split; [apply JM; reflexivity|].
    cbn [bind]. rewrite F1. cbn [bind]. rewrite F2. cbn [bind]. rewrite F3. cbn [bind]. rewrite Hfl. cbn [bind]. exists (Ok (h1, mjoin lss)). split; [exact Hr0|]. exists r4. split; [exact Hr4|reflexivity].
  - intros r (rA & rB & rM & H1 & H2 & H3 & Hm). apply JA in H1. apply JB in H2. apply JM in H3. subst rA rB rM.
    cbn [bind] in Hm. rewrite F1 in Hm. cbn [bind] in Hm. rewrite F2 in Hm. cbn [bind] in Hm. rewrite F3 in Hm. cbn [bind] in Hm. rewrite Hfl in Hm. cbn [bind] in Hm.
    destruct Hm as (r1' & Hr1 & Hm). destruct (Hall r1' Hr1) as (h1 & lss & -> & Hsub & Hls & Hsz). destruct Hm as (r2' & Hr2 & ->). destruct (proj2 (Hseq h1) r2' Hr2) as (h' & -> & Hsub' & Hsz'). cbn [bind].
    assert (G : exists firsts, mjoin lss = zip_with (fun first t => mkHLine first c t cm) firsts tnums /\ length firsts = length tnums /\ Forall (fun first => length first = 10 /\ some_values mul add ofInt EA EB first) firsts).
    { clear -Hls. induction Hls as [|t ls ts lss (first & -> & K) _ (firsts & E1 & E2 & E3)]; [exists []; repeat split; constructor|]. exists (first :: firsts). rewrite mjoin_cons, E1. split; [reflexivity|]. split; [simpl; lia|constructor; assumption]. }
    destruct G as (firsts & -> & G2 & G3). exists h', firsts. split; [etransitivity; eassumption|]. split; [reflexivity|]. split; [exact G2|]. split; [exact G3|].
    assert (Es : sum_list ((fun _ => k1) <$> tnums) = length tnums * k1) by (clear; induction tnums as [|t ts IH]; [reflexivity|rewrite fmap_cons; simpl in *; lia]). rewrite Es in Hsz. split.
    + intros Hcz. apply nothing_lost; [etransitivity; eassumption|]. rewrite Hsz', Hsz. unfold k1. destruct Hcz as [Hcz | ->]; [destruct (Nat.eqb_spec cm 0); [contradiction|]; cbn [andb]; lia|rewrite andb_false_r; lia].
    + intros -> ->. rewrite Hsz', Hsz. unfold k1. cbn [andb negb Nat.eqb]. lia.
Qed.
Print Assumptions C80_report_partial.

(** Too few arguments: the result is -1, nothing is read or computed. *)
Theorem C80_usage : forall V (dflt : V) mul add ofInt pick null0 stdsort itmax threads (h : gmap nat (ablock V)) r,
  spaMain dflt mul add ofInt pick null0 stdsort itmax None threads h r <-> r = Ok (h, ((-1)%Z, None, [], [])).
Proof. reflexivity. Qed.
Print Assumptions C80_usage.

(** Finding: the first ten values of the product are printed without a look at their number; if the product has fewer positions the program
    does not get to a result. *)
Theorem C80_few_refuted :
  forall V (dflt : V) (mul add : V -> V -> V) (ofInt : Z -> V) (pick : gmap nat (ablock V) -> nat) null0 ltV stdsort itmax fA fB fM tA tB tM t (h : gmap nat (ablock V)) c,
  sort_contract ltV stdsort -> (intmax <= Z.of_nat itmax)%Z -> good_file fA tA -> good_file fB tB -> good_file fM tM ->
  mm_cols fA = mm_rows fB -> mm_rows fM = mm_rows fA -> mm_cols fM = mm_cols fB ->
  1 <= mm_rows fA -> (N.of_nat (mm_rows fA + 1) < 2 ^ 17)%N -> (N.of_nat (mm_cols fB) < 2 ^ 24)%N -> 1 <= t -> length (meeting (means fA) (means fB)) + t <= itmax + 1 ->
  product_count (means fA) (means fB) c -> c < 10 ->
  forall y, ~ spaMain dflt mul add ofInt pick null0 stdsort itmax (Some (Some tA, Some tB, Some tM)) (Some t) h (Ok y).
Proof.
  intros V dflt mul add ofInt pick null0 ltV stdsort itmax fA fB fM tA tB tM t h c Hsort Hit
    (WA1 & WA2 & WA3 & WA4 & WA5 & WA6) (WB1 & WB2 & WB3 & WB4 & WB5 & WB6) (WM1 & WM2 & WM3 & WM4 & WM5 & WM6) D1 D2 D3 Hr HN Hcb Ht HW Hc H10 y.
  destruct (input_okA dflt ofInt ltV stdsort itmax fA tA Hsort Hit WA1 WA2 WA3 WA4 WA5 WA6) as (XA & A & IA & XA1 & XA2 & XA3 & XA4 & A1 & A2 & A3 & A4 & A5 & A6 & A7 & A8).
  destruct (input_okA dflt ofInt ltV stdsort itmax fB tB Hsort Hit WB1 WB2 WB3 WB4 WB5 WB6) as (XB & B & IB & XB1 & XB2 & XB3 & XB4 & B1 & B2 & B3 & B4 & B5 & B6 & B7 & B8).
  destruct (input_okA dflt ofInt ltV stdsort itmax fM tM Hsort Hit WM1 WM2 WM3 WM4 WM5 WM6) as (XM & M & IM & XM1 & XM2 & XM3 & XM4 & M1 & M2 & M3 & M4 & M5 & M6 & M7 & M8).
  pose proof (inputS_ok _ _ _ _ _ _ _ IA) as JA. pose proof (inputS_ok _ _ _ _ _ _ _ IB) as JB. pose proof (inputS_ok _ _ _ _ _ _ _ IM) as JM.
  assert (Hco : compatible A B M) by (constructor; auto; congruence). rewrite <- A2 in Hr, HN. rewrite <- B3 in Hcb.
  intros (rA & rB & rM & H1 & H2 & H3 & Hm). apply JA in H1. apply JB in H2. apply JM in H3. subst rA rB rM. cbn [bind] in Hm.
  destruct (sortedFlag (rows A) _ _); [|discriminate]. cbn [bind] in Hm. destruct (sortedFlag (rows B) _ _); [|discriminate]. cbn [bind] in Hm.
  destruct (sortedFlag (rows M) _ _); [|discriminate]. cbn [bind] in Hm. destruct (getFlopCsr A B) as [fl|]; [|discriminate]. cbn [bind] in Hm.
  destruct Hm as (r1 & Hr1 & E1). destruct r1 as [z|]; [|discriminate].
  destruct (seqA_called _ _ _ _ t Hr1) as (h1 & z1 & Hone). { left. }
  eapply (hashOne_few dflt mul add ofInt pick null0 stdsort ltV itmax A B M (means fA) (means fB) Hco A6 B6 Hr HN ltac:(lia) Hit Hsort t c Ht HW Hc); [exact H10|exact Hone].
Qed.
Print Assumptions C80_few_refuted.

Lemma sums_Z l v : sums Z.add l v -> v = foldr Z.add 0%Z l.
Proof.
  assert (P : forall l l' : list Z, l ≡ₚ l' -> foldr Z.add 0%Z l = foldr Z.add 0%Z l') by (induction 1; simpl; lia).
  induction 1 as [x|l1 l2 l x y _ -> _ -> E]; [simpl; lia|]. rewrite (P _ _ E). clear. induction l1 as [|a l1 IH]; simpl; lia.
Qed.
(** The complete graph on four vertices as all three files: 36 multiplications, 16 positions of the product, 12 of them in the mask; the ten
    values are entries of the product; everything is released. *)
Example C80_example : forall pick null0 ltV stdsort itmax tA tB tM (h : gmap nat (ablock Z)),
  (forall h, h !! pick h = None) -> sort_contract ltV stdsort -> (intmax <= Z.of_nat itmax)%Z -> file_text PropTriMain.exFile tA -> file_text PropTriMain.exFile tB -> file_text PropTriMain.exFile tM ->
  let main := spaMain 0%Z Z.mul Z.add (fun x => x) pick null0 stdsort itmax (Some (Some tA, Some tB, Some tM)) None h in
  (exists r, main r) /\ forall r, main r -> exists firsts, length firsts = 5 /\ Forall (fun first => length first = 10 /\ Forall (fun v => v ∈ [30; 3; -17; 46; 14; 7; 107; -9; 86]%Z) first) firsts /\
    r = Ok (h, (0%Z, Some 72, zip_with (fun first t => mkHLine first 16 t 12) firsts [4; 8; 16; 32; 64], mkSLine (txt "MaskedSPASpGEMM") 12 <$> [4; 8; 16; 32; 64])).
Proof.
  intros pick null0 ltV stdsort itmax tA tB tM h Hp Hs Hit HA HB HM main. assert (Hi : 200 <= itmax) by (unfold intmax in Hit; lia). set (F := PropTriMain.exFile) in *.
  assert (Em : length (meeting (means F) (means F)) = 36) by (vm_compute; reflexivity).
  assert (Hc : product_count (means F) (means F) 16).
  { exists (list_prod (seq 0 4) (seq 0 4)). split; [apply (bool_decide_unpack _); vm_compute; exact Logic.I|]. split; [|reflexivity]. intros x. split; revert x; rewrite <- Forall_forall; apply (bool_decide_unpack _); vm_compute; exact Logic.I. }
  assert (Hcm : masked_count (means F) (means F) (means F) 12).
  { exists (epos <$> means F). split; [apply (bool_decide_unpack _); vm_compute; exact Logic.I|]. split; [|vm_compute; reflexivity]. intros x. split; [|tauto].
    intros Hx. split; [exact Hx|]. assert (G : Forall (fun x => x ∈ step_pos <$> meeting (means F) (means F)) (epos <$> means F)) by (apply (bool_decide_unpack _); vm_compute; exact Logic.I).
    rewrite Forall_forall in G. apply G, Hx. }
  destruct (C80_report_partial Z 0%Z Z.mul Z.add (fun x => x) pick null0 ltV stdsort itmax F F F tA tB tM None h 16 12 Hp Hs Hit (exFile_good _ HA) (exFile_good _ HB) (exFile_good _ HM) eq_refl eq_refl eq_refl) as [Hex Hall];
    [unfold F; cbn [PropTriMain.exFile mm_rows]; lia|reflexivity|reflexivity| |exact Hc|lia|exact Hcm|].
  { intros t Ht. rewrite Em. repeat (apply elem_of_cons in Ht as [->|Ht]; [split; [lia|]; split; [reflexivity|]; lia|]). inversion Ht. }
  split; [exact Hex|]. intros r Hr. destruct (Hall r Hr) as (h' & firsts & _ & -> & HL & HF & Hh & _). rewrite Hh by (left; lia). exists firsts. split; [exact HL|]. split; [|rewrite Em; reflexivity].
  eapply Forall_impl; [exact HF|]. intros first [F1 (ps & _ & F2)]. split; [exact F1|]. clear F1. induction F2 as [|p v ps vs [Q1 Q2] _ IH]; [constructor|]. constructor; [|exact IH].
  apply sums_Z in Q2. subst v. assert (G : Forall (fun p => foldr Z.add 0%Z (products_at Z.mul (fun x => x) (means F) (means F) (fst p) (snd p)) ∈ [30; 3; -17; 46; 14; 7; 107; -9; 86]%Z) (step_pos <$> meeting (means F) (means F))) by (apply (bool_decide_unpack _); vm_compute; exact Logic.I).
  rewrite Forall_forall in G. apply G, Q1.
Qed.
(** The hypotheses of [C80_few_refuted]: a product with one position. *)
Example C80_few_example : good_file exRowA (render exRowA) /\ good_file exColB (render exColB) /\ good_file exOneM (render exOneM) /\
  mm_cols exRowA = mm_rows exColB /\ mm_rows exOneM = mm_rows exRowA /\ mm_cols exOneM = mm_cols exColB /\ mm_rows exRowA = 1 /\ mm_cols exColB = 1 /\
  length (meeting (means exRowA) (means exColB)) = 1 /\ product_count (means exRowA) (means exColB) 1.
Proof.
  destruct C79_tall_example as (G1 & G2 & G3 & G4 & G5 & G6 & _). split; [exact G1|]. split; [exact G2|]. split; [exact G3|]. split; [exact G4|]. split; [exact G5|]. split; [exact G6|].
  split; [reflexivity|]. split; [reflexivity|]. split; [vm_compute; reflexivity|]. exists [(0, 0)]. split; [apply NoDup_singleton|]. split; [|reflexivity]. intros x.
  replace (step_pos <$> meeting (means exRowA) (means exColB)) with [(0, 0)] by (vm_compute; reflexivity). reflexivity.
Qed.
