(** The inputs of MaskedHashSpGEMM.cpp, its calls on shuffled matrices and one number of threads of its first loop. *)
From Coq Require Import NArith ZArith Ascii String.
From stdpp Require Import numbers list_numbers gmap sorting.
From Verif Require Import BaseProofs WorkModel WorkProofs ConcProofs Assemble MatSpec MatStatements ConvProofs PropReport IoSpec IoModel MatModel PropMat PropMaskHash BlockCalls
  ObjModel ObjSpec ObjProofs MainSpec MainCalls RunModel RunSpec RunProofs AllMainModel AllMainSpec AllMainLoops AllMainProofs AllMainCalls SampleModel SampleProofs
  ShufModel ShufSpec PropShuf GenModel GenProofs PropGen SpaMainModel SpaMainSpec SpaMainProofs HashMainModel PropAllMain.
From Verif Require Import Base Spec.
Local Open Scope nat_scope.

(** ** Shuffled rows *)
Lemma perm_triples {V} (X X' : csr V) : rows X' = rows X -> (forall i, i < rows X -> row_entries X' i ≡ₚ row_entries X i) -> triples X' ≡ₚ triples X.
Proof.
  intros E H. unfold triples. rewrite E. assert (G : forall l, (forall i, i ∈ l -> i < rows X) ->
    mjoin ((fun i => (fun e => (i, fst e, snd e)) <$> row_entries X' i) <$> l) ≡ₚ mjoin ((fun i => (fun e => (i, fst e, snd e)) <$> row_entries X i) <$> l)).
  { induction l as [|i l IH]; intros Hl; [reflexivity|]. rewrite !fmap_cons, !mjoin_cons. apply Permutation_app; [|apply IH; intros; apply Hl; right; assumption].
    apply fmap_Permutation, H, Hl. left. }
  apply G. intros i Hi. apply elem_of_seq in Hi. lia.
Qed.
Lemma read_of_inputS {V} (dflt : V) ofInt stdsort itmax file X T : (forall r, inputS dflt ofInt stdsort itmax file r <-> r = Ok (X, T)) ->
  (forall rX, readASCII ofInt dflt stdsort (Z.of_nat itmax) file rX <-> rX = Ok X) /\ csrOfCsc dflt X = Ok T.
Proof.
  intros H. assert (G : forall rX, readASCII ofInt dflt stdsort (Z.of_nat itmax) file rX -> rX = Ok X /\ csrOfCsc dflt X = Ok T).
  { intros rX HrX. pose proof (proj1 (H _) (ex_intro _ rX (conj HrX eq_refl))) as E. destruct rX as [X'|e]; [|discriminate]. cbn [bind] in E.
    destruct (csrOfCsc dflt X') as [T'|] eqn:ET; [|discriminate]. injection E as -> ->. auto. }
  destruct (proj2 (H (Ok (X, T))) eq_refl) as (rX & HrX & _). destruct (G rX HrX) as [-> ET]. split; [|exact ET].
  intros r. split; [intros Hr; apply G, Hr|intros ->; exact HrX].
Qed.
(** Every row has an entry. *)
Lemma rows_entries {V} (ofInt : Z -> V) (E : list (nat * nat * Z)) (T : csr V) i : conv ofInt <$> E ≡ₚ triples T -> i < rows T ->
  row_entries T i = [] <-> forall j, (i, j) ∉ epos <$> E.
Proof.
  intros P Hi. assert (Q : forall j, (i, j) ∈ epos <$> E <-> j ∈ row_cols T i).
  { intros j. transitivity ((i, j) ∈ fst <$> triples T); [rewrite <- P, <- list_fmap_compose; reflexivity|]. rewrite triplesV_pos. tauto. }
  split.
  - intros H j Hj. apply Q in Hj. unfold row_cols in Hj. rewrite H in Hj. inversion Hj.
  - intros H. destruct (row_entries T i) as [|[j v] l] eqn:El; [reflexivity|]. exfalso. apply (H j), Q. unfold row_cols. rewrite El. left.
Qed.

Section Inputs.
Context {V : Type} (dflt : V) (ofInt : Z -> V) (ltV : V -> V -> Prop) (stdsort : list (nat * V) -> list (nat * V)) (itmax : nat).
Context (Hsort : sort_contract ltV stdsort) (Hit : (intmax <= Z.of_nat itmax)%Z).
Context (generate : bool -> Z -> Z -> res (csc V * csc V)) (readBin : option text -> res (option (csc V)) -> Prop) (files : text -> option text).
Context (a0 mode nA nB : text) (rest : list text) (fA fB : mmfile) (tA tB : text).
Context (Hg : mode <> txt "gen") (Hb : mode <> txt "binary") (FA : files nA = Some tA) (FB : files nB = Some tB) (GA : good_file fA tA) (GB : good_file fB tB).
Notation setInputs := (setInputs dflt ofInt stdsort (Z.of_nat itmax) generate readBin files (a0 :: mode :: nA :: nB :: rest)).

Lemma two_files : exists XA XB A B, (forall rI, setInputs rI <-> rI = (_ <- stem nA ;; Ok (XA, XB))) /\ csrOfCsc dflt XA = Ok A /\ csrOfCsc dflt XB = Ok B /\
  wf A /\ rows A = mm_rows fA /\ cols A = mm_cols fA /\ conv ofInt <$> means fA ≡ₚ triples A /\ sorted_rows A /\
  wf B /\ rows B = mm_rows fB /\ cols B = mm_cols fB /\ conv ofInt <$> means fB ≡ₚ triples B.
Proof.
  destruct GA as (WA1 & WA2 & WA3 & WA4 & WA5 & WA6), GB as (WB1 & WB2 & WB3 & WB4 & WB5 & WB6).
  destruct (input_okA dflt ofInt ltV stdsort itmax fA tA Hsort Hit WA1 WA2 WA3 WA4 WA5 WA6) as (XA & A & IA & XA1 & XA2 & XA3 & XA4 & A1 & A2 & A3 & A4 & A5 & A6 & A7 & A8).
  destruct (input_okA dflt ofInt ltV stdsort itmax fB tB Hsort Hit WB1 WB2 WB3 WB4 WB5 WB6) as (XB & B & IB & XB1 & XB2 & XB3 & XB4 & B1 & B2 & B3 & B4 & B5 & B6 & B7 & B8).
  destruct (read_of_inputS _ _ _ _ _ _ _ (inputS_ok _ _ _ _ _ _ _ IA)) as [RA EA]. destruct (read_of_inputS _ _ _ _ _ _ _ (inputS_ok _ _ _ _ _ _ _ IB)) as [RB EB].
  exists XA, XB, A, B. split; [|auto 20]. intros rI. unfold GenModel.setInputs, arg. cbn [get lookup list_lookup bind]. unfold sameText. rewrite !bool_decide_eq_false_2 by assumption. rewrite FA, FB. split.
  - intros (rA & rB & H1 & H2 & ->). apply RA in H1. apply RB in H2. subst. reflexivity.
  - intros ->. exists (Ok XA), (Ok XB). split; [apply RA; reflexivity|]. split; [apply RB; reflexivity|]. reflexivity.
Qed.
End Inputs.

(** ** Calls with a mask whose rows are in any order *)
Section Calls.
Context {V : Type} (dflt zero : V) (mul add : V -> V -> V) (ofInt : Z -> V) (itmax t : nat).
Context (A B M : csr V) (EA EB EM : list (nat * nat * Z)).
Context (Hco : compatible A B M) (HdM : forall i, i < rows A -> NoDup (row_cols M i)).
Context (PA : conv ofInt <$> EA ≡ₚ triples A) (PB : conv ofInt <$> EB ≡ₚ triples B) (PM : conv ofInt <$> EM ≡ₚ triples M).
Context (Hr : 1 <= rows A) (HN : (N.of_nat (rows A + 1) < 2 ^ 17)%N) (Hcb : (N.of_nat (cols B) < 2 ^ 24)%N) (Ht : 1 <= t).
Context (Hit : (intmax <= Z.of_nat itmax)%Z) (HW : length (meeting EA EB) + t <= itmax + 1).
Local Notation ANS := (answerA zero mul add ofInt EA EB EM (rows A) (cols B)).

Lemma mask_length i : i < rows A -> length (row_cols M i) <= cols B.
Proof.
  intros Hi. rewrite <- (co_cols A B M Hco), <- (seq_length (cols M) 0). apply submseteq_length, NoDup_submseteq; [apply HdM, Hi|].
  intros c Hc. apply elem_of_seq. pose proof (row_cols_range M i c (co_M _ _ _ Hco) Hc). lia.
Qed.
Lemma call_hashU : (exists R, allHash dflt mul add itmax A B M t R) /\ forall R, allHash dflt mul add itmax A B M t R -> ANS false false R.
Proof.
  apply ends_unique; [exists 0; exact I|]. intros nts _. unfold intmax in Hit.
  destruct (C45_bin_partial V dflt mul add 32 (itmax + 1) (2 * itmax + 1) nts t A B M Hco ltac:(lia) Ht HN) as (C & HQ & HC & Hu).
  { lia. }
  { intros i Hi. pose proof (mask_length i Hi). lia. }
  { rewrite (prods_sum ofInt A B M EA EB Hco PA PB). exact HW. }
  { intros i Hi. lia. }
  exists C. split; [exact HC|]. split; [exact Hu|]. apply (masked_answer zero mul add ofInt A B M EA EB EM Hco PA PB PM), HQ.
Qed.
Lemma call_wobinU : (exists R, allWobin dflt mul add itmax A B M R) /\ forall R, allWobin dflt mul add itmax A B M R -> ANS false false R.
Proof.
  unfold intmax in Hit. destruct (C45_wobin_partial V dflt mul add 32 (itmax + 1) A B M Hco HN) as (C & HQ & HC).
  { lia. }
  { intros i Hi. pose proof (mask_length i Hi). lia. }
  apply ends_unique.
  - exists (0, [seq 0 (rows A)], [seq 0 (rows A)]). cbn [fst snd]. unfold schedule. simpl. rewrite app_nil_r. auto.
  - intros [[nts a1] a2] [H1 H2]. cbn [fst snd] in *. destruct (HC (2 * itmax + 1) nts a1 a2 H1 H2) as [K1 K2]. exists C. split; [exact K1|]. split; [exact K2|].
    apply (masked_answer zero mul add ofInt A B M EA EB EM Hco PA PB PM), HQ.
Qed.
End Calls.

(** ** The first loop *)
Section First.
Context {V : Type} (dflt : V) (mul add : V -> V -> V) (ofInt : Z -> V) (pick : gmap nat (ablock V) -> nat) (null0 : bool) (stdsort : list (nat * V) -> list (nat * V)) (ltV : V -> V -> Prop) (itmax : nat).
Context (A B M : csr V) (EA EB : list (nat * nat * Z)).
Context (Hco : compatible A B M).
Context (PA : conv ofInt <$> EA ≡ₚ triples A) (PB : conv ofInt <$> EB ≡ₚ triples B).
Context (Hr : 1 <= rows A) (HN : (N.of_nat (rows A + 1) < 2 ^ 17)%N) (Hcb : (N.of_nat (cols B) <= 2 ^ 30)%N).
Context (Hit : (intmax <= Z.of_nat itmax)%Z) (Hsort : sort_contract ltV stdsort).
Context (t c : nat) (Ht : 1 <= t) (HW : length (meeting EA EB) + t <= itmax + 1) (Hc : product_count EA EB c).

Lemma hashFirst_ok h : (forall h, h !! pick h = None) -> 10 <= c -> (exists r, hashFirst dflt mul add pick null0 stdsort itmax A B t h r) /\
  forall r, hashFirst dflt mul add pick null0 stdsort itmax A B t h r -> exists first, r = Ok (h, [first]) /\ length first = 10 /\ some_values mul add ofInt EA EB first.
Proof.
  intros Hp H10. destruct (first_call dflt mul add ofInt pick null0 stdsort ltV itmax Hp A B M EA EB Hco PA PB Hr HN Hcb Hit Hsort t c Ht HW Hc h) as [F1 F2].
  split; [destruct F1 as [r1 Hr1]; eexists; exists r1; split; [exact Hr1|reflexivity]|].
  intros r (r1 & Hr1 & ->). destruct (F2 r1 Hr1) as (s & R & -> & HS & HR).
  destruct (hash_shape dflt mul add ofInt stdsort ltV itmax A B M EA EB Hco PA PB Hr HN Hcb Hit Hsort t c Ht HW Hc R HR) as ((L1 & L2 & L3) & K2 & EN & HP). cbn [bind].
  assert (E0 : (c =? 0) = false) by (apply Nat.eqb_neq; lia). rewrite E0 in HS. cbn [lost_result andb] in HS.
  destruct (h_ent _ _ _ (proj2 HS) ltac:(lia)) as (b1 & b2 & _ & Eva & _ & Hb2).
  assert (EV : blkV (o_va (fst s)) (snd s) = Ok (b2, values R)) by (rewrite Eva; cbn [blkV]; rewrite Hb2; reflexivity).
  rewrite (firstTen_ok _ _ _ _ EV). destruct (Nat.ltb_spec (length (values R)) 10); [lia|]. cbn [bind].
  destruct (empty_step pick Hp h _ s R HS) as (s2 & -> & HS2 & O2 & N2). cbn [bind]. destruct (empty_step pick Hp h _ s2 _ HS2) as (s3 & -> & HS3 & O3 & N3). cbn [bind].
  exists (take 10 (values R)). split; [|split; [rewrite take_length; lia|eapply PANS_values, HP]]. f_equal. f_equal. destruct HS3 as [I3 _].
  apply nothing_lost; [apply I3|]. rewrite (i_size _ _ _ _ I3), O3. simpl. lia.
Qed.
Lemma hashFirst_few h r : c < 10 -> ~ hashFirst dflt mul add pick null0 stdsort itmax A B t h (Ok r).
Proof.
  intros H10 (r1 & (R & HR & ->) & Hr'). destruct (hash_shape dflt mul add ofInt stdsort ltV itmax A B M EA EB Hco PA PB Hr HN Hcb Hit Hsort t c Ht HW Hc R HR) as ((L1 & L2 & L3) & K2 & EN & HP). cbn [publish publishOver fst snd] in Hr'.
  unfold publishOver, setArrays in Hr'. destruct (allocI pick null0 (rowptr R) h) as [p1 h1]. destruct (allocI pick null0 (colids R) h1) as [p2 h2]. destruct (allocV pick null0 (values R) h2) as [p3 h3] eqn:E3. cbn [bind fst snd] in Hr'.
  assert (E : exists e, firstTen (mkObj (rows R) (cols R) (nnz R) p1 p2 p3 true) h3 = Err e).
  { unfold allocV in E3. destruct (null0 && (length (values R) =? 0)); injection E3 as <- <-.
    - exists OutOfBounds. reflexivity.
    - exists OutOfBounds. rewrite (firstTen_ok _ _ (pick h2) (values R)); [destruct (Nat.ltb_spec (length (values R)) 10); [reflexivity|lia]|]. cbn [o_va blkV]. rewrite lookup_insert. reflexivity. }
  destruct E as [e E]. rewrite E in Hr'. discriminate.
Qed.
End First.
