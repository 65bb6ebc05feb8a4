(** C82: HashSpGEMM (the program) from the arguments and the texts of the files to the printed lines. *)
From Coq Require Import NArith ZArith Ascii String Sorted.
From stdpp Require Import numbers list_numbers gmap sorting.
From Verif Require Import BaseProofs WorkModel WorkProofs Assemble MatSpec MatStatements ConvProofs PropReport IoSpec IoModel PropIo PropMat MatModel DriverModel
  ObjModel ObjSpec MainSpec MainCalls RunSpec RunProofs AllMainModel AllMainSpec AllMainLoops AllMainProofs AllMainCalls.
From Verif Require IoProofs.
From Verif Require Import Examples IoModel TriMainSpec PropTriMain PropAllMain SampleModel SampleProofs PropSample SpaMainModel SpaMainSpec SpaMainProofs PropSpaMain.
From Verif Require Import ShufModel ShufSpec PropShuf GenModel GenProofs PropGen HashMainModel HashMainProofs PropHashMain HashProdModel HashProdSpec HashProdProofs.
From Verif Require Import Base Spec.
Local Open Scope nat_scope.

(** The numbers of threads that the arguments behind the two file names ask for: the second of them, if there is one. *)
Definition asked2 (rest : list text) (tnums : list nat) : Prop :=
  (length rest <= 1 /\ tnums = [32; 64]) \/ (exists x t more, rest = x :: showNat t :: more /\ (Z.of_nat t <= intmax)%Z /\ tnums = [t]).

Lemma asked2_threads a0 a1 a2 a3 rest tnums : asked2 rest tnums -> prodThreads (a0 :: a1 :: a2 :: a3 :: rest) = Ok tnums.
Proof.
  intros [[Hl ->]|(x & t & more & -> & Ht & ->)]; unfold prodThreads.
  - destruct rest as [|x [|y rest]]; [reflexivity|reflexivity|simpl in Hl; lia].
  - cbn [length Nat.ltb Nat.leb]. unfold arg. cbn [get lookup list_lookup bind]. pose proof (IoProofs.atoi_nat t [] Ht Logic.I) as E. rewrite app_nil_r in E. rewrite E. cbn [bind]. rewrite Nat2Z.id. reflexivity.
Qed.

Section C82.
Context {V : Type} (dflt : V) (mul add : V -> V -> V) (ofInt : Z -> V) (pick : gmap nat (ablock V) -> nat) (null0 : bool) (ltV : V -> V -> Prop) (stdsort : list (nat * V) -> list (nat * V)) (itmax : nat).
Context (Hsort : sort_contract ltV stdsort) (Hit : (intmax <= Z.of_nat itmax)%Z).
Context (generate : bool -> Z -> Z -> res (csc V * csc V)) (readBin : option text -> res (option (csc V)) -> Prop) (files : text -> option text) (drawA drawB : nat -> nat -> nat).
Context (HdA : ShufSpec.in_range drawA) (HdB : ShufSpec.in_range drawB).
Notation main := (prodMain dflt mul add ofInt pick null0 stdsort generate readBin files drawA drawB itmax).
Notation setInputs := (setInputs dflt ofInt stdsort (Z.of_nat itmax) generate readBin files).

(** What reaches the loop. *)
Lemma loaded2 a0 mode nA nB rest fA fB tA tB : mode <> txt "gen" -> mode <> txt "binary" -> plain_name nA -> files nA = Some tA -> files nB = Some tB -> good_file fA tA -> good_file fB tB ->
  mm_cols fA = mm_rows fB -> full_rows fA -> full_rows fB ->
  exists A B, (exists rI, setInputs (a0 :: mode :: nA :: nB :: rest) rI) /\
    (forall rI, setInputs (a0 :: mode :: nA :: nB :: rest) rI -> (' (A, B) <- shuffledPair dflt drawA drawB rI ;; flop <- getFlopCsr A B ;; Ok (A, B, flop)) = Ok (A, B, 2 * length (meeting (means fA) (means fB)))) /\
    wf A /\ wf B /\ cols A = rows B /\ rows A = mm_rows fA /\ cols B = mm_cols fB /\ conv ofInt <$> means fA ≡ₚ triples A /\ conv ofInt <$> means fB ≡ₚ triples B.
Proof.
  intros Hg Hb Hn FA FB GA GB Hsq RA RB.
  destruct (two_files dflt ofInt ltV stdsort itmax Hsort Hit generate readBin files a0 mode nA nB rest fA fB tA tB Hg Hb FA FB GA GB)
    as (XA & XB & A & B & HI & EA & EB & A1 & A2 & A3 & A4 & A5 & B1 & B2 & B3 & B4).
  assert (Hst : exists s, stem nA = Ok s) by (destruct Hn as (dir & s & ext & -> & N1 & N2 & N3 & N4 & N5 & N6); eexists; apply (stem_ok dir s ext N1 N2 N3 N4 N5 N6)).
  destruct Hst as [s0 Hst].
  assert (NA : forall i, i < rows A -> row_entries A i <> []).
  { intros i Hi E. rewrite (rows_entries ofInt (means fA) A i A4 Hi) in E. rewrite A2 in Hi. destruct (RA i Hi) as [j Hj]. exact (E j Hj). }
  assert (NB : forall i, i < rows B -> row_entries B i <> []).
  { intros i Hi E. rewrite (rows_entries ofInt (means fB) B i B4 Hi) in E. rewrite B2 in Hi. destruct (RB i Hi) as [j Hj]. exact (E j Hj). }
  destruct (C61_shuffle true drawA A HdA A1 (fun _ => NA)) as (A' & SA & S1 & S2 & S3 & S4 & S5 & S6).
  destruct (C61_shuffle true drawB B HdB B1 (fun _ => NB)) as (B' & SB & T1 & T2 & T3 & T4 & T5 & T6).
  destruct (C33_sorted_flag V A A1) as (r1 & F1 & _). destruct (C33_sorted_flag V B B1) as (r2 & F2 & _).
  assert (P : conv ofInt <$> means fA ≡ₚ triples A') by (rewrite A4; symmetry; apply perm_triples; assumption).
  assert (Q : conv ofInt <$> means fB ≡ₚ triples B') by (rewrite B4; symmetry; apply perm_triples; assumption).
  exists A', B'. split; [eexists; apply HI; reflexivity|]. split.
  { intros rI HrI. apply HI in HrI. subst rI. rewrite Hst. unfold shuffledPair. cbn [bind]. rewrite EA. cbn [bind]. rewrite EB. cbn [bind]. rewrite F1. cbn [bind]. rewrite F2. cbn [bind]. rewrite SA. cbn [bind]. rewrite SB. cbn [bind].
    rewrite (C58_flop_csr A' B' S1 T1 ltac:(congruence)). cbn [bind]. rewrite (mult_file ofInt (triples A') (triples B') _ _ P Q). reflexivity. }
  split; [exact S1|]. split; [exact T1|]. split; [congruence|]. split; [congruence|]. split; [congruence|]. split; [exact P|exact Q].
Qed.

(** For two files with integral values and an entry in every row, whose sizes fit and whose product has at least ten positions, and whatever
    the shuffles draw: the program ends with result 0.  It prints twice the number of multiplications and for each number of threads the
    values of the product at its first ten positions, by rows and columns, and the number of its positions.  All memory of the output objects is released. *)
Theorem C82_report_partial a0 mode nA nB rest fA fB tA tB tnums h c :
  (forall h, h !! pick h = None) -> mode <> txt "gen" -> mode <> txt "binary" -> plain_name nA -> files nA = Some tA -> files nB = Some tB -> good_file fA tA -> good_file fB tB ->
  mm_cols fA = mm_rows fB -> full_rows fA -> full_rows fB -> 1 <= mm_rows fA -> (N.of_nat (mm_rows fA + 1) < 2 ^ 17)%N -> (N.of_nat (mm_cols fB) <= 2 ^ 30)%N -> asked2 rest tnums ->
  let EA := means fA in let EB := means fB in
  (forall t, t ∈ tnums -> 1 <= t /\ length (meeting EA EB) + t <= itmax + 1) -> product_count EA EB c -> 10 <= c ->
  (exists r, main (a0 :: mode :: nA :: nB :: rest) h r) /\
  forall r, main (a0 :: mode :: nA :: nB :: rest) h r -> exists firsts,
    r = Ok (h, (0%Z, Some (2 * length (meeting EA EB)), zip_with (fun first t => mkPLine first c t) firsts tnums)) /\
    length firsts = length tnums /\ Forall (fun first => length first = 10 /\ first_values mul add ofInt EA EB first) firsts.
Proof.
  intros Hp Hg Hb Hn FA FB GA GB Hsq RA RB Hr HN Hcb Hask EA EB Hts Hc H10.
  destruct (loaded2 a0 mode nA nB rest fA fB tA tB Hg Hb Hn FA FB GA GB Hsq RA RB) as (A & B & [rI0 HI0] & HI & A1 & B1 & HAB & A2 & B2 & P & Q). fold EA in P, HI. fold EB in Q, HI.
  rewrite <- A2 in Hr, HN. rewrite <- B2 in Hcb. pose proof (asked2_threads a0 mode nA nB rest tnums Hask) as HT.
  destruct (seqA_ok (prodOne dflt mul add pick null0 stdsort itmax 10 A B) (fun t ls => exists first, ls = [mkPLine first c t] /\ length first = 10 /\ first_values mul add ofInt EA EB first) (fun _ => 0) tnums) with (h := h) as [[r0 Hr0] Hall].
  { intros t h' Hin. destruct (Hts t Hin) as (T1 & T3).
    destruct (prodOne_ok dflt mul add ofInt stdsort ltV itmax A B EA EB A1 B1 HAB P Q Hr HN Hcb Hit Hsort t c T1 T3 Hc pick null0 10 h' Hp ltac:(lia) H10) as [O1 O2].
    split; [exact O1|]. intros r Hr'. destruct (O2 r Hr') as (first & -> & K). exists h'. eexists. split; [reflexivity|]. split; [reflexivity|]. split; [eauto|lia]. }
  unfold prodMain. cbn [length Nat.ltb Nat.leb]. rewrite HT. split.
  - eexists. exists rI0. split; [exact HI0|]. rewrite (HI rI0 HI0). exists r0. split; [exact Hr0|reflexivity].
  - intros r (rI & HrI & Hm). rewrite (HI rI HrI) in Hm. destruct Hm as (r1 & Hr1 & ->). destruct (Hall r1 Hr1) as (h' & lss & -> & Hsub & Hls & Hsz). cbn [bind].
    assert (h' = h) as ->. { apply nothing_lost; [exact Hsub|]. rewrite Hsz. clear. induction tnums as [|t ts IH]; [simpl; lia|exact IH]. }
    assert (G : exists firsts, mjoin lss = zip_with (fun first t => mkPLine first c t) firsts tnums /\ length firsts = length tnums /\ Forall (fun first => length first = 10 /\ first_values mul add ofInt EA EB first) firsts).
    { clear -Hls. induction Hls as [|t ls ts lss (first & -> & K) _ (firsts & E1 & E2 & E3)]; [exists []; repeat split; constructor|]. exists (first :: firsts). rewrite mjoin_cons, E1. split; [reflexivity|]. split; [simpl; lia|constructor; assumption]. }
    destruct G as (firsts & -> & G2 & G3). exists firsts. split; [reflexivity|]. split; [exact G2|exact G3].
Qed.

(** Too few arguments: the result is -1, nothing is read or computed. *)
Theorem C82_usage argv h r : length argv < 4 -> main argv h r <-> r = Ok (h, ((-1)%Z, None, [])).
Proof using Type. clear. intros H. unfold prodMain. apply Nat.ltb_lt in H. rewrite H. reflexivity. Qed.

(** Finding: INDEXTYPE is int; one row without an entry, in either file, violates a precondition of the library in shuffleIds. *)
Theorem C82_empty_row_refuted a0 mode nA nB rest fA fB tA tB tnums h r :
  mode <> txt "gen" -> mode <> txt "binary" -> plain_name nA -> files nA = Some tA -> files nB = Some tB -> good_file fA tA -> good_file fB tB ->
  asked2 rest tnums -> (exists f i, (f = fA \/ f = fB) /\ i < mm_rows f /\ forall j, (i, j) ∉ epos <$> means f) ->
  main (a0 :: mode :: nA :: nB :: rest) h r <-> r = Err AssertFail.
Proof.
  intros Hg Hb Hn FA FB GA GB Hask Hrow.
  destruct (two_files dflt ofInt ltV stdsort itmax Hsort Hit generate readBin files a0 mode nA nB rest fA fB tA tB Hg Hb FA FB GA GB)
    as (XA & XB & A & B & HI & EA & EB & A1 & A2 & A3 & A4 & A5 & B1 & B2 & B3 & B4).
  assert (Hst : exists s, stem nA = Ok s) by (destruct Hn as (dir & s & ext & -> & N1 & N2 & N3 & N4 & N5 & N6); eexists; apply (stem_ok dir s ext N1 N2 N3 N4 N5 N6)).
  destruct Hst as [s0 Hst]. rewrite Hst in HI. cbn [bind] in HI.
  destruct (C33_sorted_flag V A A1) as (r1 & F1 & _). destruct (C33_sorted_flag V B B1) as (r2 & F2 & _).
  assert (SH : shuffledPair dflt drawA drawB (Ok (XA, XB)) = Err AssertFail).
  { unfold shuffledPair. cbn [bind]. rewrite EA. cbn [bind]. rewrite EB. cbn [bind]. rewrite F1. cbn [bind]. rewrite F2. cbn [bind].
    destruct (decide (Exists (fun i => length (row_entries A i) = 0) (seq 0 (rows A)))) as [Hex|Hno].
    - apply Exists_exists in Hex as (i & Hi & El). apply elem_of_seq in Hi. rewrite (C61_signed_refuted drawA A HdA A1); [reflexivity|]. exists i. split; [lia|]. apply nil_length_inv, El.
    - assert (NA : forall i, i < rows A -> row_entries A i <> []).
      { intros i Hi El. apply Hno, Exists_exists. exists i. split; [apply elem_of_seq; lia|rewrite El; reflexivity]. }
      destruct (C61_shuffle true drawA A HdA A1 (fun _ => NA)) as (A' & -> & _). cbn [bind]. rewrite (C61_signed_refuted drawB B HdB B1); [reflexivity|].
      destruct Hrow as (f & i & [-> | ->] & Hi & Hj).
      + exfalso. rewrite <- A2 in Hi. apply (NA i Hi). apply (rows_entries ofInt (means fA) A i A4 Hi), Hj.
      + rewrite <- B2 in Hi. exists i. split; [exact Hi|]. apply (rows_entries ofInt (means fB) B i B4 Hi), Hj. }
  unfold prodMain. cbn [length Nat.ltb Nat.leb]. rewrite (asked2_threads a0 mode nA nB rest tnums Hask). split.
  - intros (rI & HrI & Hm). apply HI in HrI. subst rI. rewrite SH in Hm. exact Hm.
  - intros ->. exists (Ok (XA, XB)). split; [apply HI; reflexivity|]. rewrite SH. reflexivity.
Qed.

(** Finding: the splitting of the first file name, as in C81. *)
Theorem C82_name_refuted a0 mode nA nB rest fA fB tA tB tnums h r :
  mode <> txt "gen" -> mode <> txt "binary" -> ("."%char ∉ nA \/ (exists n, nA = "."%char :: n /\ "."%char ∉ n) \/ exists u n, nA = (u ++ ["."; "."] ++ n)%char /\ "."%char ∉ n /\ n <> []) ->
  files nA = Some tA -> files nB = Some tB -> good_file fA tA -> good_file fB tB ->
  asked2 rest tnums -> main (a0 :: mode :: nA :: nB :: rest) h r <-> r = Err OutOfBounds.
Proof using Hsort Hit.
  clear HdA HdB. intros Hg Hb Hn FA FB GA GB Hask.
  destruct (two_files dflt ofInt ltV stdsort itmax Hsort Hit generate readBin files a0 mode nA nB rest fA fB tA tB Hg Hb FA FB GA GB) as (XA & XB & A & B & HI & _).
  assert (Hst : stem nA = Err OutOfBounds) by (destruct Hn as [Hn|[(n & -> & Hn)|(u & n & -> & Hn & Hnn)]]; [apply stem_nodot, Hn|apply stem_dot, Hn|apply stem_dots; assumption]).
  rewrite Hst in HI. cbn [bind] in HI. unfold prodMain. cbn [length Nat.ltb Nat.leb]. rewrite (asked2_threads a0 mode nA nB rest tnums Hask). split.
  - intros (rI & HrI & Hm). apply HI in HrI. subst rI. exact Hm.
  - intros ->. exists (Err OutOfBounds). split; [apply HI; reflexivity|]. reflexivity.
Qed.

(** Finding: the first ten values are printed without a look at their number; if there are fewer the program does not get to a result. *)
Theorem C82_few_refuted a0 mode nA nB rest fA fB tA tB tnums t h c y :
  mode <> txt "gen" -> mode <> txt "binary" -> plain_name nA -> files nA = Some tA -> files nB = Some tB -> good_file fA tA -> good_file fB tB ->
  mm_cols fA = mm_rows fB -> full_rows fA -> full_rows fB -> 1 <= mm_rows fA -> (N.of_nat (mm_rows fA + 1) < 2 ^ 17)%N -> (N.of_nat (mm_cols fB) <= 2 ^ 30)%N -> asked2 rest tnums ->
  t ∈ tnums -> 1 <= t -> length (meeting (means fA) (means fB)) + t <= itmax + 1 -> product_count (means fA) (means fB) c -> c < 10 ->
  ~ main (a0 :: mode :: nA :: nB :: rest) h (Ok y).
Proof.
  intros Hg Hb Hn FA FB GA GB Hsq RA RB Hr HN Hcb Hask Hin Ht HW Hc H10 Hm.
  destruct (loaded2 a0 mode nA nB rest fA fB tA tB Hg Hb Hn FA FB GA GB Hsq RA RB) as (A & B & _ & HI & A1 & B1 & HAB & A2 & B2 & P & Q).
  rewrite <- A2 in Hr, HN. rewrite <- B2 in Hcb.
  unfold prodMain in Hm. cbn [length Nat.ltb Nat.leb] in Hm. rewrite (asked2_threads a0 mode nA nB rest tnums Hask) in Hm. destruct Hm as (rI & HrI & Hm). rewrite (HI rI HrI) in Hm.
  destruct Hm as (r1 & Hr1 & Hm). destruct r1 as [z|]; [|discriminate]. destruct (seqA_called _ _ _ _ t Hr1 Hin) as (h1 & z1 & Hone).
  eapply (prodOne_few dflt mul add ofInt stdsort ltV itmax A B (means fA) (means fB) A1 B1 HAB P Q Hr HN Hcb Hit Hsort t c Ht HW Hc pick null0); [exact H10|exact Hone].
Qed.
End C82.
Print Assumptions C82_report_partial.
Print Assumptions C82_usage.
Print Assumptions C82_empty_row_refuted.
Print Assumptions C82_name_refuted.
Print Assumptions C82_few_refuted.

(** In sorted order there is only one list of the positions. *)
Lemma before_unique l1 l2 : StronglySorted before l1 -> StronglySorted before l2 -> (forall x, x ∈ l1 <-> x ∈ l2) -> l1 = l2.
Proof.
  assert (N : forall l, StronglySorted before l -> NoDup l).
  { induction 1 as [|x l _ IH Hx]; constructor; [|exact IH]. intros Hin. rewrite Forall_forall in Hx. specialize (Hx x Hin). unfold before in Hx. lia. }
  intros H1 H2 H. assert (AS : AntiSymm (=) before) by (intros p q Hpq Hqp; unfold before in *; lia). apply (StronglySorted_unique before); [exact H1|exact H2|]. apply NoDup_Permutation; auto.
Qed.
(** The complete graph on four vertices as both files: 36 multiplications, 16 positions, and exactly the first ten values of its square. *)
Example C82_example : forall pick null0 ltV stdsort itmax generate readBin (files : text -> option text) drawA drawB tA tB (h : gmap nat (ablock Z)),
  (forall h, h !! pick h = None) -> sort_contract ltV stdsort -> (intmax <= Z.of_nat itmax)%Z -> ShufSpec.in_range drawA -> ShufSpec.in_range drawB ->
  files (txt "data/k4.mtx") = Some tA -> files (txt "b") = Some tB -> file_text PropTriMain.exFile tA -> file_text PropTriMain.exFile tB ->
  let main := prodMain 0%Z Z.mul Z.add (fun x => x) pick null0 stdsort generate readBin files drawA drawB itmax [txt "prog"; txt "text"; txt "data/k4.mtx"; txt "b"] h in
  let first := (fun p => foldr Z.add 0%Z (products_at Z.mul (fun x => x) (means PropTriMain.exFile) (means PropTriMain.exFile) (fst p) (snd p))) <$> take 10 (list_prod (seq 0 4) (seq 0 4)) in
  first = [30; 3; -17; 46; 3; 3; 14; 7; -17; 14]%Z /\ forall r, main r <-> r = Ok (h, (0%Z, Some 72, [mkPLine first 16 32; mkPLine first 16 64])).
Proof.
  intros pick null0 ltV stdsort itmax generate readBin files drawA drawB tA tB h Hp Hs Hit HdA HdB FA FB HA HB main first. split; [vm_compute; reflexivity|].
  assert (Hi : 200 <= itmax) by (unfold intmax in Hit; lia). set (F := PropTriMain.exFile) in *.
  assert (Em : length (meeting (means F) (means F)) = 36) by (vm_compute; reflexivity).
  assert (HL : forall x, x ∈ list_prod (seq 0 4) (seq 0 4) <-> x ∈ step_pos <$> meeting (means F) (means F)).
  { intros x. split; revert x; rewrite <- Forall_forall; apply (bool_decide_unpack _); vm_compute; exact Logic.I. }
  assert (Hc : product_count (means F) (means F) 16).
  { exists (list_prod (seq 0 4) (seq 0 4)). split; [apply (bool_decide_unpack _); vm_compute; exact Logic.I|]. split; [exact HL|reflexivity]. }
  assert (HR : full_rows F).
  { intros i Hi'. unfold F in Hi'. cbn [PropTriMain.exFile mm_rows] in Hi'. exists (if i =? 0 then 1 else 0). do 4 (destruct i as [|i]; [apply (bool_decide_unpack _); vm_compute; exact Logic.I|]). lia. }
  assert (HS : StronglySorted before (list_prod (seq 0 4) (seq 0 4))).
  { cbn. repeat (constructor; [|repeat (constructor; [unfold before; cbn; lia|]); constructor]). constructor. }
  assert (HF1 : forall vs, length vs = 10 -> first_values Z.mul Z.add (fun x => x) (means F) (means F) vs -> vs = first).
  { intros vs Hl (ps & qs & K1 & K2 & K3). assert (E : ps ++ qs = list_prod (seq 0 4) (seq 0 4)) by (apply before_unique; [exact K1|exact HS|]; intros x; rewrite K2, HL; reflexivity).
    pose proof (Forall2_length _ _ _ K3) as E2. assert (E3 : ps = take 10 (list_prod (seq 0 4) (seq 0 4))) by (rewrite <- E; rewrite take_app_alt by lia; reflexivity).
    unfold first. rewrite <- E3. clear -K3. induction K3 as [|p v ps vs K _ IH]; [reflexivity|]. rewrite fmap_cons, <- IH. f_equal. apply sums_Z, K. }
  destruct (C82_report_partial 0%Z Z.mul Z.add (fun x => x) pick null0 ltV stdsort itmax Hs Hit generate readBin files drawA drawB HdA HdB (txt "prog") (txt "text") (txt "data/k4.mtx") (txt "b") [] F F tA tB [32; 64] h 16 Hp) as [[r0 Hr0] Hall];
    [discriminate|discriminate| |exact FA|exact FB|exact (exFile_good _ HA)|exact (exFile_good _ HB)|reflexivity|exact HR|exact HR|unfold F; cbn [PropTriMain.exFile mm_rows]; lia|reflexivity|discriminate| | |exact Hc|lia|].
  { exists (txt "data/"), (txt "k4"), (txt "mtx"). split; [reflexivity|]. split; [right; exists (txt "data"); reflexivity|]. split; [discriminate|].
    split; [apply (bool_decide_unpack _); vm_compute; exact Logic.I|]. split; [apply (bool_decide_unpack _); vm_compute; exact Logic.I|]. split; [discriminate|]. apply (bool_decide_unpack _); vm_compute; exact Logic.I. }
  { left. split; [simpl; lia|reflexivity]. }
  { intros t Ht. rewrite Em. repeat (apply elem_of_cons in Ht as [->|Ht]; [split; lia|]). inversion Ht. }
  assert (G : forall r, main r -> r = Ok (h, (0%Z, Some 72, [mkPLine first 16 32; mkPLine first 16 64]))).
  { intros r Hr. destruct (Hall r Hr) as (firsts & -> & HLen & HF). destruct firsts as [|f1 [|f2 [|f3 firsts]]]; [cbn in HLen; lia|cbn in HLen; lia| |cbn in HLen; lia].
    inversion HF as [|? ? [P1 P2] HF2]; subst. inversion HF2 as [|? ? [P3 P4] _]; subst. rewrite (HF1 f1 P1 P2), (HF1 f2 P3 P4), Em. reflexivity. }
  intros r. split; [apply G|]. intros ->. rewrite <- (G r0 Hr0). exact Hr0.
Qed.
(** The hypotheses of the findings: one entry and its square; a row without an entry ([C81_empty_row_example]); the names of [C81_name_example]. *)
Example C82_few_example : good_file exOneM (render exOneM) /\ mm_cols exOneM = mm_rows exOneM /\ full_rows exOneM /\ product_count (means exOneM) (means exOneM) 1.
Proof. destruct C81_few_example as (G1 & _ & G3 & _ & G5). split; [exact G1|]. split; [reflexivity|]. split; [exact G3|exact G5]. Qed.
