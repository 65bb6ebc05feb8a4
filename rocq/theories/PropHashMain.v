(** C81: MaskedHashSpGEMM from the arguments and the texts of the files to the printed lines. *)
From Coq Require Import NArith ZArith Ascii String.
From stdpp Require Import numbers list_numbers gmap sorting.
From Verif Require Import BaseProofs WorkModel WorkProofs Assemble MatSpec MatStatements ConvProofs PropReport IoSpec IoModel PropIo PropMat MatModel DriverModel
  ObjModel ObjSpec MainSpec MainCalls RunSpec RunProofs AllMainModel AllMainSpec AllMainLoops AllMainProofs AllMainCalls.
From Verif Require IoProofs.
From Verif Require Import Examples IoModel TriMainSpec PropTriMain PropAllMain SampleModel SampleProofs PropSample SpaMainModel SpaMainSpec SpaMainProofs PropSpaMain.
From Verif Require Import ShufModel ShufSpec PropShuf GenModel GenProofs PropGen HashMainModel HashMainProofs.
From Verif Require Import Base Spec.
Local Open Scope nat_scope.

(** Every row of the file's matrix has an entry. *)
Definition full_rows (f : mmfile) : Prop := forall i, i < mm_rows f -> exists j, (i, j) ∈ epos <$> means f.
(** The numbers of threads that the arguments behind the two file names ask for: the second of them, if there is one. *)
Definition asked (rest : list text) (tnums : list nat) : Prop :=
  (length rest <= 1 /\ tnums = [4; 8; 16; 32; 64]) \/ (exists x t more, rest = x :: showNat t :: more /\ (Z.of_nat t <= intmax)%Z /\ tnums = [t]).

Lemma asked_threads a0 a1 a2 a3 rest tnums : asked rest tnums -> threadNumbers (a0 :: a1 :: a2 :: a3 :: rest) = Ok tnums.
Proof.
  intros [[Hl ->]|(x & t & more & -> & Ht & ->)]; unfold threadNumbers.
  - destruct rest as [|x [|y rest]]; [reflexivity|reflexivity|simpl in Hl; lia].
  - cbn [length Nat.ltb Nat.leb]. unfold arg. cbn [get lookup list_lookup bind]. pose proof (IoProofs.atoi_nat t [] Ht Logic.I) as E. rewrite app_nil_r in E. rewrite E. cbn [bind]. rewrite Nat2Z.id. reflexivity.
Qed.

Lemma stem_dots u n : "."%char ∉ n -> n <> [] -> stem (u ++ ["."; "."] ++ n)%char = Err OutOfBounds.
Proof.
  intros H Hn. unfold stem. change ((u ++ ["."; "."] ++ n)%char) with ((u ++ "." :: ("." :: n))%char). rewrite pieces_app. cbn [pieces Ascii.eqb Bool.eqb]. rewrite (pieces_one _ n Hn H).
  rewrite fromEnd_app by (simpl; lia). reflexivity.
Qed.

Section C81.
Context {V : Type} (dflt : V) (mul add : V -> V -> V) (ofInt : Z -> V) (pick : gmap nat (ablock V) -> nat) (null0 : bool) (ltV : V -> V -> Prop) (stdsort : list (nat * V) -> list (nat * V)) (itmax : nat).
Context (Hsort : sort_contract ltV stdsort) (Hit : (intmax <= Z.of_nat itmax)%Z).
Context (generate : bool -> Z -> Z -> res (csc V * csc V)) (readBin : option text -> res (option (csc V)) -> Prop) (files : text -> option text) (drawA drawB : nat -> nat -> nat).
Context (HdA : ShufSpec.in_range drawA) (HdB : ShufSpec.in_range drawB).
Notation main := (hashMain dflt mul add ofInt pick null0 stdsort generate readBin files drawA drawB itmax).
Notation setInputs := (setInputs dflt ofInt stdsort (Z.of_nat itmax) generate readBin files).

(** What reaches the loops. *)
Lemma loaded a0 mode nA nB rest fA fB tA tB : mode <> txt "gen" -> mode <> txt "binary" -> plain_name nA -> files nA = Some tA -> files nB = Some tB -> good_file fA tA -> good_file fB tB ->
  mm_rows fA = mm_cols fA -> full_rows fA -> full_rows fB ->
  exists A, (exists rI, setInputs (a0 :: mode :: nA :: nB :: rest) rI) /\
    (forall rI, setInputs (a0 :: mode :: nA :: nB :: rest) rI -> (' (A, B) <- shuffledInputs dflt drawA drawB rI ;; flop <- getFlopCsr A B ;; Ok (A, B, flop)) = Ok (A, A, 2 * length (meeting (means fA) (means fA)))) /\
    compatible A A A /\ rows A = mm_rows fA /\ cols A = mm_cols fA /\ conv ofInt <$> means fA ≡ₚ triples A /\ (forall i, i < rows A -> NoDup (row_cols A i)).
Proof.
  intros Hg Hb Hn FA FB GA GB Hsq RA RB.
  destruct (two_files dflt ofInt ltV stdsort itmax Hsort Hit generate readBin files a0 mode nA nB rest fA fB tA tB Hg Hb FA FB GA GB)
    as (XA & XB & A & B & HI & EA & EB & A1 & A2 & A3 & A4 & A5 & B1 & B2 & B3 & B4).
  assert (Hst : exists s, stem nA = Ok s) by (destruct Hn as (dir & s & ext & -> & N1 & N2 & N3 & N4 & N5 & N6); eexists; apply (stem_ok dir s ext N1 N2 N3 N4 N5 N6)).
  destruct Hst as [s0 Hst].
  assert (NA : forall i, i < rows A -> row_entries A i <> []).
  { intros i Hi E. rewrite (rows_entries ofInt (means fA) A i A4 Hi) in E. rewrite A2 in Hi. destruct (RA i Hi) as [j Hj]. exact (E j Hj). }
  assert (NB : forall i, i < rows B -> row_entries B i <> []).
  { intros i Hi E. rewrite (rows_entries ofInt (means fB) B i B4 Hi) in E. rewrite B2 in Hi. destruct (RB i Hi) as [j Hj]. exact (E j Hj). }
  destruct (C61_shuffle true drawA A HdA A1 (fun _ => NA)) as (A' & SA & S1 & S2 & S3 & S4 & S5 & S6).
  destruct (C61_shuffle true drawB B HdB B1 (fun _ => NB)) as (B' & SB & _).
  destruct (C33_sorted_flag V A A1) as (r1 & F1 & _). destruct (C33_sorted_flag V B B1) as (r2 & F2 & _).
  assert (P : conv ofInt <$> means fA ≡ₚ triples A') by (rewrite A4; symmetry; apply perm_triples; assumption).
  exists A'. split; [eexists; apply HI; reflexivity|]. split.
  { intros rI HrI. apply HI in HrI. subst rI. rewrite Hst. unfold shuffledInputs. cbn [bind]. rewrite EA. cbn [bind]. rewrite EB. cbn [bind]. rewrite F1. cbn [bind]. rewrite F2. cbn [bind]. rewrite SA. cbn [bind]. rewrite SB. cbn [bind].
    rewrite (C58_flop_csr A' A' S1 S1 ltac:(congruence)). cbn [bind]. rewrite (mult_file ofInt (triples A') (triples A') _ _ P P). reflexivity. }
  split; [constructor; auto; congruence|]. split; [congruence|]. split; [congruence|]. split; [exact P|].
  intros i Hi. unfold row_cols. rewrite (S6 i ltac:(congruence)). apply sorted_NoDup, A5. congruence.
Qed.

(** For two files with integral values and an entry in every row, the first of a square matrix A whose square has at least ten positions,
    and whatever the shuffles draw: the program ends with result 0.  It prints twice the number of multiplications of A * A, for each number of threads
    ten values of A * A at different positions, and twice for each number of threads the number of positions of A with a product.  The second
    file has no influence.  All memory of the output objects is released, unless A has no such position and malloc(0) does not give NULL (finding). *)
Theorem C81_report_partial a0 mode nA nB rest fA fB tA tB tnums h c cm :
  (forall h, h !! pick h = None) -> mode <> txt "gen" -> mode <> txt "binary" -> plain_name nA -> files nA = Some tA -> files nB = Some tB -> good_file fA tA -> good_file fB tB ->
  mm_rows fA = mm_cols fA -> full_rows fA -> full_rows fB -> 1 <= mm_rows fA -> (N.of_nat (mm_rows fA + 1) < 2 ^ 17)%N -> asked rest tnums ->
  let E := means fA in
  (forall t, t ∈ tnums -> 1 <= t /\ length (meeting E E) + t <= itmax + 1) -> product_count E E c -> 10 <= c -> masked_count E E E cm ->
  (exists r, main (a0 :: mode :: nA :: nB :: rest) h r) /\
  forall r, main (a0 :: mode :: nA :: nB :: rest) h r -> exists h' firsts, h ⊆ h' /\
    r = Ok (h', (0%Z, Some (2 * length (meeting E E)), firsts, mkSLine (txt "mxm_hash_mask_wobin") cm <$> tnums, mkSLine (txt "mxm_hash_mask") cm <$> tnums)) /\
    length firsts = length tnums /\ Forall (fun first => length first = 10 /\ some_values mul add ofInt E E first) firsts /\
    (cm <> 0 \/ null0 = true -> h' = h) /\
    (cm = 0 -> null0 = false -> size h' = size h + length tnums * 44).
Proof.
  intros Hp Hg Hb Hn FA FB GA GB Hsq RA RB Hr HN Hask E Hts Hc H10 Hcm.
  destruct (loaded a0 mode nA nB rest fA fB tA tB Hg Hb Hn FA FB GA GB Hsq RA RB) as (A & [rI0 HI0] & HI & Hco & A2 & A3 & P & HND). fold E in P, HI.
  rewrite <- A2 in Hr, HN. assert (Hcb : (N.of_nat (cols A) < 2 ^ 24)%N) by (rewrite A3, <- Hsq, <- A2; lia).
  pose proof (asked_threads a0 mode nA nB rest tnums Hask) as HT.
  set (bw := mkABench (str "mxm_hash_mask_wobin") KOver (fun _ _ => allWobin dflt mul add itmax A A A)).
  set (bh := mkABench (str "mxm_hash_mask") KOver (fun t _ => allHash dflt mul add itmax A A A t)).
  set (k1 := if (cm =? 0) && negb null0 then 2 else 0).
  assert (L1 : forall h, (exists r, seqA (hashFirst dflt mul add pick null0 stdsort itmax A A) tnums h r) /\
    forall r, seqA (hashFirst dflt mul add pick null0 stdsort itmax A A) tnums h r -> exists firsts, r = Ok (h, firsts) /\ length firsts = length tnums /\ Forall (fun first => length first = 10 /\ some_values mul add ofInt E E first) firsts).
  { intros h1. destruct (seqA_ok (hashFirst dflt mul add pick null0 stdsort itmax A A) (fun t ls => exists first, ls = [first] /\ length first = 10 /\ some_values mul add ofInt E E first) (fun _ => 0) tnums) with (h := h1) as [Hex Hall].
    { intros t h' Hin. destruct (Hts t Hin) as (T1 & T3).
      destruct (hashFirst_ok dflt mul add ofInt pick null0 stdsort ltV itmax A A A E E Hco P P Hr HN ltac:(lia) Hit Hsort t c T1 T3 Hc h' Hp H10) as [O1 O2].
      split; [exact O1|]. intros r Hr'. destruct (O2 r Hr') as (first & -> & K). exists h', [first]. split; [reflexivity|]. split; [reflexivity|]. split; [eauto|lia]. }
    split; [exact Hex|]. intros r Hr'. destruct (Hall r Hr') as (h' & lss & -> & Hsub & Hls & Hsz).
    assert (h' = h1) as ->. { apply nothing_lost; [exact Hsub|]. rewrite Hsz. clear. induction tnums as [|t ts IH]; [simpl; lia|exact IH]. }
    exists (mjoin lss). split; [reflexivity|]. clear -Hls. induction Hls as [|t ls ts lss (first & -> & K) _ (E2 & E3)]; [repeat split; constructor|]. rewrite mjoin_cons. split; [simpl; lia|constructor; assumption]. }
  assert (LB : forall b, b ∈ [bw; bh] -> forall h, (exists r, seqA (smpOne dflt pick null0 b 10) tnums h r) /\
    forall r, seqA (smpOne dflt pick null0 b 10) tnums h r -> exists h', r = Ok (h', (fun t => mkSLine (a_label b) cm t) <$> tnums) /\ h ⊆ h' /\ size h' = size h + length tnums * ((10 + 1) * k1)).
  { intros b Hin h1. assert (Eb : a_kind b = KOver) by (apply elem_of_cons in Hin as [->|Hin]; [reflexivity|]; apply elem_of_list_singleton in Hin as ->; reflexivity).
    apply smp_seq; [exact Hp|lia|rewrite Eb; discriminate|]. intros t Ht. destruct (Hts t Ht) as (T1 & T3).
    assert (K : (exists R, a_prod b t 0 R) /\ forall R, a_prod b t 0 R -> answerA dflt mul add ofInt E E E (rows A) (cols A) false false R).
    { apply elem_of_cons in Hin as [->|Hin]; [|apply elem_of_list_singleton in Hin as ->].
      - exact (call_wobinU dflt dflt mul add ofInt itmax t A A A E E E Hco HND P P P Hr HN Hcb T1 Hit T3).
      - exact (call_hashU dflt dflt mul add ofInt itmax t A A A E E E Hco HND P P P Hr HN Hcb T1 Hit T3). }
    destruct K as [K1 K2]. split; [exact K1|]. split; [rewrite Eb; unfold k1, lost_result; cbn [lost_local]; lia|].
    intros R HR. pose proof (K2 R HR) as HA. split; [apply (count_unique E E E); [eapply answer_count, HA|exact Hcm]|]. eapply answer_shape; [exact Hr|exact HA]. }
  assert (LW := LB bw ltac:(left)). assert (LH := LB bh ltac:(right; left)).
  unfold hashMain. cbn [length Nat.ltb Nat.leb]. rewrite HT. split.
  - destruct (L1 h) as [[r1 Hr1] D1]. destruct (D1 r1 Hr1) as (firsts & -> & _). destruct (LW h) as [[r2 Hr2] D2]. destruct (D2 r2 Hr2) as (h2 & -> & _). destruct (LH h2) as [[r3 Hr3] _].
    eexists. exists rI0. split; [exact HI0|]. rewrite (HI rI0 HI0). exists (Ok (h, firsts)). split; [exact Hr1|]. eexists. split; [exact Hr2|]. exists r3. split; [exact Hr3|reflexivity].
  - intros r (rI & HrI & Hm). rewrite (HI rI HrI) in Hm. destruct Hm as (r1 & Hr1 & Hm). destruct (proj2 (L1 h) r1 Hr1) as (firsts & -> & G2 & G3).
    destruct Hm as (r2 & Hr2 & Hm). destruct (proj2 (LW h) r2 Hr2) as (h2 & -> & Hs2 & Hz2). destruct Hm as (r3 & Hr3 & ->). destruct (proj2 (LH h2) r3 Hr3) as (h3 & -> & Hs3 & Hz3). cbn [bind].
    exists h3, firsts. split; [etransitivity; eassumption|]. split; [reflexivity|]. split; [exact G2|]. split; [exact G3|]. split.
    + intros Hcz. apply nothing_lost; [etransitivity; eassumption|]. rewrite Hz3, Hz2. unfold k1. destruct Hcz as [Hcz | ->]; [destruct (Nat.eqb_spec cm 0); [contradiction|]; cbn [andb]; lia|rewrite andb_false_r; lia].
    + intros -> ->. rewrite Hz3, Hz2. unfold k1. cbn [andb negb Nat.eqb]. lia.
Qed.

(** Too few arguments: the result is -1, nothing is read or computed. *)
Theorem C81_usage argv h r : length argv < 4 -> main argv h r <-> r = Ok (h, ((-1)%Z, None, [], [], [])).
Proof using Type. clear. intros H. unfold hashMain. apply Nat.ltb_lt in H. rewrite H. reflexivity. Qed.

(** Finding: INDEXTYPE is int; one row without an entry, in either file, violates a precondition of the library in shuffleIds. *)
Theorem C81_empty_row_refuted a0 mode nA nB rest fA fB tA tB tnums h r :
  mode <> txt "gen" -> mode <> txt "binary" -> plain_name nA -> files nA = Some tA -> files nB = Some tB -> good_file fA tA -> good_file fB tB ->
  asked rest tnums -> (exists f i, (f = fA \/ f = fB) /\ i < mm_rows f /\ forall j, (i, j) ∉ epos <$> means f) ->
  main (a0 :: mode :: nA :: nB :: rest) h r <-> r = Err AssertFail.
Proof.
  intros Hg Hb Hn FA FB GA GB Hask Hrow.
  destruct (two_files dflt ofInt ltV stdsort itmax Hsort Hit generate readBin files a0 mode nA nB rest fA fB tA tB Hg Hb FA FB GA GB)
    as (XA & XB & A & B & HI & EA & EB & A1 & A2 & A3 & A4 & A5 & B1 & B2 & B3 & B4).
  assert (Hst : exists s, stem nA = Ok s) by (destruct Hn as (dir & s & ext & -> & N1 & N2 & N3 & N4 & N5 & N6); eexists; apply (stem_ok dir s ext N1 N2 N3 N4 N5 N6)).
  destruct Hst as [s0 Hst]. rewrite Hst in HI. cbn [bind] in HI.
  destruct (C33_sorted_flag V A A1) as (r1 & F1 & _). destruct (C33_sorted_flag V B B1) as (r2 & F2 & _).
  assert (SH : shuffledInputs dflt drawA drawB (Ok (XA, XB)) = Err AssertFail).
  { unfold shuffledInputs. cbn [bind]. rewrite EA. cbn [bind]. rewrite EB. cbn [bind]. rewrite F1. cbn [bind]. rewrite F2. cbn [bind].
    destruct (decide (Exists (fun i => length (row_entries A i) = 0) (seq 0 (rows A)))) as [Hex|Hno].
    - apply Exists_exists in Hex as (i & Hi & El). apply elem_of_seq in Hi. rewrite (C61_signed_refuted drawA A HdA A1); [reflexivity|]. exists i. split; [lia|]. apply nil_length_inv, El.
    - assert (NA : forall i, i < rows A -> row_entries A i <> []).
      { intros i Hi El. apply Hno, Exists_exists. exists i. split; [apply elem_of_seq; lia|rewrite El; reflexivity]. }
      destruct (C61_shuffle true drawA A HdA A1 (fun _ => NA)) as (A' & -> & _). cbn [bind]. rewrite (C61_signed_refuted drawB B HdB B1); [reflexivity|].
      destruct Hrow as (f & i & [-> | ->] & Hi & Hj).
      + exfalso. rewrite <- A2 in Hi. apply (NA i Hi). apply (rows_entries ofInt (means fA) A i A4 Hi), Hj.
      + rewrite <- B2 in Hi. exists i. split; [exact Hi|]. apply (rows_entries ofInt (means fB) B i B4 Hi), Hj. }
  unfold hashMain. cbn [length Nat.ltb Nat.leb]. rewrite (asked_threads a0 mode nA nB rest tnums Hask). split.
  - intros (rI & HrI & Hm). apply HI in HrI. subst rI. rewrite SH in Hm. exact Hm.
  - intros ->. exists (Ok (XA, XB)). split; [apply HI; reflexivity|]. rewrite SH. reflexivity.
Qed.

(** Finding: the file name is split at points to get a name that is not used; for a name without a point, or one like "../data/matrix" whose
    last point follows another one, or one like "./matrix", whose only point begins it, the program reads outside of the pieces. *)
Theorem C81_name_refuted a0 mode nA nB rest fA fB tA tB tnums h r :
  mode <> txt "gen" -> mode <> txt "binary" -> ("."%char ∉ nA \/ (exists n, nA = "."%char :: n /\ "."%char ∉ n) \/ exists u n, nA = (u ++ ["."; "."] ++ n)%char /\ "."%char ∉ n /\ n <> []) -> files nA = Some tA -> files nB = Some tB -> good_file fA tA -> good_file fB tB ->
  asked rest tnums -> main (a0 :: mode :: nA :: nB :: rest) h r <-> r = Err OutOfBounds.
Proof using Hsort Hit.
  clear HdA HdB. intros Hg Hb Hn FA FB GA GB Hask.
  destruct (two_files dflt ofInt ltV stdsort itmax Hsort Hit generate readBin files a0 mode nA nB rest fA fB tA tB Hg Hb FA FB GA GB) as (XA & XB & A & B & HI & _).
  assert (Hst : stem nA = Err OutOfBounds) by (destruct Hn as [Hn|[(n & -> & Hn)|(u & n & -> & Hn & Hnn)]]; [apply stem_nodot, Hn|apply stem_dot, Hn|apply stem_dots; assumption]).
  rewrite Hst in HI. cbn [bind] in HI. unfold hashMain. cbn [length Nat.ltb Nat.leb]. rewrite (asked_threads a0 mode nA nB rest tnums Hask). split.
  - intros (rI & HrI & Hm). apply HI in HrI. subst rI. exact Hm.
  - intros ->. exists (Err OutOfBounds). split; [apply HI; reflexivity|]. reflexivity.
Qed.

(** Finding: the first ten values of A * A are printed without a look at their number; if there are fewer the program does not get to a result. *)
Theorem C81_few_refuted a0 mode nA nB rest fA fB tA tB tnums t h c y :
  mode <> txt "gen" -> mode <> txt "binary" -> plain_name nA -> files nA = Some tA -> files nB = Some tB -> good_file fA tA -> good_file fB tB ->
  mm_rows fA = mm_cols fA -> full_rows fA -> full_rows fB -> 1 <= mm_rows fA -> (N.of_nat (mm_rows fA + 1) < 2 ^ 17)%N -> asked rest tnums ->
  t ∈ tnums -> 1 <= t -> length (meeting (means fA) (means fA)) + t <= itmax + 1 -> product_count (means fA) (means fA) c -> c < 10 ->
  ~ main (a0 :: mode :: nA :: nB :: rest) h (Ok y).
Proof.
  intros Hg Hb Hn FA FB GA GB Hsq RA RB Hr HN Hask Hin Ht HW Hc H10 Hm.
  destruct (loaded a0 mode nA nB rest fA fB tA tB Hg Hb Hn FA FB GA GB Hsq RA RB) as (A & _ & HI & Hco & A2 & A3 & P & _).
  rewrite <- A2 in Hr, HN. assert (Hcb : (N.of_nat (cols A) < 2 ^ 24)%N) by (rewrite A3, <- Hsq, <- A2; lia).
  unfold hashMain in Hm. cbn [length Nat.ltb Nat.leb] in Hm. rewrite (asked_threads a0 mode nA nB rest tnums Hask) in Hm. destruct Hm as (rI & HrI & Hm). rewrite (HI rI HrI) in Hm.
  destruct Hm as (r1 & Hr1 & Hm). destruct r1 as [z|]; [|discriminate]. destruct (seqA_called _ _ _ _ t Hr1 Hin) as (h1 & z1 & Hone).
  eapply (hashFirst_few dflt mul add ofInt pick null0 stdsort ltV itmax A A A (means fA) (means fA) Hco P P Hr HN ltac:(lia) Hit Hsort t c Ht HW Hc); [exact H10|exact Hone].
Qed.
End C81.
Print Assumptions C81_report_partial.
Print Assumptions C81_usage.
Print Assumptions C81_empty_row_refuted.
Print Assumptions C81_name_refuted.
Print Assumptions C81_few_refuted.

(** The complete graph on four vertices as both files: 36 multiplications, 16 positions of the product, 12 of them in the graph; the ten values
    are entries of the product; everything is released. *)
Example C81_example : forall pick null0 ltV stdsort itmax generate readBin (files : text -> option text) drawA drawB tA tB (h : gmap nat (ablock Z)),
  (forall h, h !! pick h = None) -> sort_contract ltV stdsort -> (intmax <= Z.of_nat itmax)%Z -> ShufSpec.in_range drawA -> ShufSpec.in_range drawB ->
  files (txt "data/k4.mtx") = Some tA -> files (txt "b") = Some tB -> file_text PropTriMain.exFile tA -> file_text PropTriMain.exFile tB ->
  let main := hashMain 0%Z Z.mul Z.add (fun x => x) pick null0 stdsort generate readBin files drawA drawB itmax [txt "prog"; txt "text"; txt "data/k4.mtx"; txt "b"; txt "x"; txt "3"] h in
  (exists r, main r) /\ forall r, main r -> exists first, length first = 10 /\ Forall (fun v => v ∈ [30; 3; -17; 46; 14; 7; 107; -9; 86]%Z) first /\
    r = Ok (h, (0%Z, Some 72, [first], [mkSLine (txt "mxm_hash_mask_wobin") 12 3], [mkSLine (txt "mxm_hash_mask") 12 3])).
Proof.
  intros pick null0 ltV stdsort itmax generate readBin files drawA drawB tA tB h Hp Hs Hit HdA HdB FA FB HA HB main. assert (Hi : 200 <= itmax) by (unfold intmax in Hit; lia). set (F := PropTriMain.exFile) in *.
  assert (Em : length (meeting (means F) (means F)) = 36) by (vm_compute; reflexivity).
  assert (Hc : product_count (means F) (means F) 16).
  { exists (list_prod (seq 0 4) (seq 0 4)). split; [apply (bool_decide_unpack _); vm_compute; exact Logic.I|]. split; [|reflexivity]. intros x. split; revert x; rewrite <- Forall_forall; apply (bool_decide_unpack _); vm_compute; exact Logic.I. }
  assert (Hcm : masked_count (means F) (means F) (means F) 12).
  { exists (epos <$> means F). split; [apply (bool_decide_unpack _); vm_compute; exact Logic.I|]. split; [|vm_compute; reflexivity]. intros x. split; [|tauto].
    intros Hx. split; [exact Hx|]. assert (G : Forall (fun x => x ∈ step_pos <$> meeting (means F) (means F)) (epos <$> means F)) by (apply (bool_decide_unpack _); vm_compute; exact Logic.I).
    rewrite Forall_forall in G. apply G, Hx. }
  assert (HR : full_rows F).
  { intros i Hi'. unfold F in Hi'. cbn [PropTriMain.exFile mm_rows] in Hi'. exists (if i =? 0 then 1 else 0). do 4 (destruct i as [|i]; [apply (bool_decide_unpack _); vm_compute; exact Logic.I|]). lia. }
  destruct (C81_report_partial 0%Z Z.mul Z.add (fun x => x) pick null0 ltV stdsort itmax Hs Hit generate readBin files drawA drawB HdA HdB (txt "prog") (txt "text") (txt "data/k4.mtx") (txt "b") [txt "x"; txt "3"] F F tA tB [3] h 16 12 Hp) as [Hex Hall];
    [discriminate|discriminate| |exact FA|exact FB|exact (exFile_good _ HA)|exact (exFile_good _ HB)|reflexivity|exact HR|exact HR|unfold F; cbn [PropTriMain.exFile mm_rows]; lia|reflexivity| | |exact Hc|lia|exact Hcm|].
  { exists (txt "data/"), (txt "k4"), (txt "mtx"). split; [reflexivity|]. split; [right; exists (txt "data"); reflexivity|]. split; [discriminate|].
    split; [apply (bool_decide_unpack _); vm_compute; exact Logic.I|]. split; [apply (bool_decide_unpack _); vm_compute; exact Logic.I|]. split; [discriminate|]. apply (bool_decide_unpack _); vm_compute; exact Logic.I. }
  { right. exists (txt "x"), 3, []. split; [reflexivity|]. split; [unfold intmax; lia|reflexivity]. }
  { intros t Ht. rewrite Em. apply elem_of_list_singleton in Ht as ->. split; lia. }
  split; [exact Hex|]. intros r Hr. destruct (Hall r Hr) as (h' & firsts & _ & -> & HL & HF & Hh & _). rewrite Hh by (left; lia). destruct firsts as [|first [|first' firsts]]; [cbn in HL; lia| |cbn in HL; lia]. exists first.
  apply Forall_singleton in HF as [F1 (ps & _ & F2)]. split; [exact F1|]. split; [|rewrite Em; reflexivity]. clear -F2. induction F2 as [|p v ps vs [Q1 Q2] _ IH]; [constructor|]. constructor; [|exact IH].
  apply sums_Z in Q2. subst v. assert (G : Forall (fun p => foldr Z.add 0%Z (products_at Z.mul (fun x => x) (means F) (means F) (fst p) (snd p)) ∈ [30; 3; -17; 46; 14; 7; 107; -9; 86]%Z) (step_pos <$> meeting (means F) (means F))) by (apply (bool_decide_unpack _); vm_compute; exact Logic.I).
  rewrite Forall_forall in G. apply G, Q1.
Qed.
(** The hypotheses of the findings: one entry in a row of its own; a row without an entry; names without a usable point. *)
Example C81_few_example : good_file exOneM (render exOneM) /\ mm_rows exOneM = mm_cols exOneM /\ full_rows exOneM /\ mm_rows exOneM = 1 /\ product_count (means exOneM) (means exOneM) 1.
Proof.
  destruct C79_tall_example as (_ & _ & G3 & _). split; [exact G3|]. split; [reflexivity|]. split; [intros i Hi; destruct i as [|i]; [exists 0; apply (bool_decide_unpack _); vm_compute; exact Logic.I|cbn in Hi; lia]|]. split; [reflexivity|].
  exists [(0, 0)]. split; [apply NoDup_singleton|]. split; [|reflexivity]. intros x. replace (step_pos <$> meeting (means exOneM) (means exOneM)) with [(0, 0)] by (vm_compute; reflexivity). reflexivity.
Qed.
Definition exHole : mmfile := mkMM Integer SymNo [] 2 2 [(1, 2, 5%Z, [])].
Example C81_empty_row_example : good_file exHole (render exHole) /\ 1 < mm_rows exHole /\ forall j, (1, j) ∉ epos <$> means exHole.
Proof.
  assert (W : mm_wf exHole).
  { unfold mm_wf. split; [apply Forall_nil; exact Logic.I|split; [|split; [|split; [|split]]]].
    - apply Forall_forall. intros l Hl. apply Nat.leb_le. revert l Hl. rewrite <- Forall_forall.
      cbn [exHole mm_entries mm_field fmap list_fmap]. repeat (apply Forall_cons; split; [vm_compute; reflexivity|]). apply Forall_nil; exact Logic.I.
    - vm_compute. discriminate.
    - vm_compute. discriminate.
    - vm_compute. discriminate.
    - cbn [exHole mm_entries mm_rows mm_cols]. repeat (apply Forall_cons; split; [split; [lia|split; [lia|split; [vm_compute; discriminate|left; reflexivity]]]|]). apply Forall_nil; exact Logic.I. }
  split; [|split; [cbn; lia|]].
  - split; [exact W|]. split; [discriminate|]. split; [repeat constructor|]. split; [discriminate|]. split; [apply (bool_decide_unpack _); vm_compute; exact Logic.I|]. left. exists []. rewrite app_nil_r. reflexivity.
  - intros j Hj. change (epos <$> means exHole) with [(0, 1)] in Hj. apply elem_of_list_singleton in Hj. discriminate.
Qed.
Example C81_name_example : "."%char ∉ txt "matrix" /\ txt "./matrix" = "."%char :: txt "/matrix" /\ "."%char ∉ txt "/matrix" /\
  (txt "../data/matrix" = [] ++ ["."; "."] ++ txt "/data/matrix")%char /\ "."%char ∉ txt "/data/matrix".
Proof. split; [apply (bool_decide_unpack _); vm_compute; exact Logic.I|]. split; [reflexivity|]. split; [apply (bool_decide_unpack _); vm_compute; exact Logic.I|]. split; [reflexivity|]. apply (bool_decide_unpack _); vm_compute; exact Logic.I. Qed.
