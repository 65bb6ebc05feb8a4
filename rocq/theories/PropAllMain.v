(** C74: MaskedAllSpGEMM from the texts of the three files to the printed lines. *)
From Coq Require Import NArith ZArith Ascii String.
From stdpp Require Import numbers list_numbers gmap sorting.
From Verif Require Import BaseProofs WorkProofs Assemble MatSpec MatStatements ConvProofs PropReport IoSpec IoModel PropIo PropMat MatModel DriverModel
  HeapImplModel PropHeapImpl ObjModel ObjSpec MainSpec MainCalls RunSpec RunProofs AllMainModel AllMainSpec AllMainLoops AllMainProofs AllMainCalls.
From Verif Require Import Examples IoModel TriMainSpec PropTriMain.
From Verif Require Import Base Spec.
Local Open Scope nat_scope.

(** What is asked of a file. *)
Definition good_file (f : mmfile) (t : text) : Prop :=
  mm_wf f /\ mm_symm f <> SymSkew /\ values_integral f /\ (mm_symm f = SymYes -> mm_rows f = mm_cols f) /\ NoDup (epos <$> means f) /\ file_text f t.
(** How the bytes of indices and values look. *)
Definition bytes_of {X} (n : nat) (enc : X -> list N) : Prop := forall x, length (enc x) = n /\ Forall is_byte (enc x).

Lemma joined_bytes {X} n (enc : X -> list N) l : bytes_of n enc -> Forall is_byte (mjoin (enc <$> l)) /\ length (mjoin (enc <$> l)) = length l * n.
Proof.
  intros H. split; [|apply mjoin_len; intros; apply H]. induction l as [|x l IH]; [constructor|]. rewrite fmap_cons, mjoin_cons. apply Forall_app. split; [apply H|exact IH].
Qed.
Lemma calc_is {X} n (enc : X -> list N) l c : bytes_of n enc -> calculateChecksum (mjoin (enc <$> l)) (length l * n) = Ok c -> is_checksum (mjoin (enc <$> l)) c.
Proof.
  intros H E. destruct (joined_bytes n enc l H) as [H1 H2]. destruct (C56_checksum (mjoin (enc <$> l)) (length l * n) H1 ltac:(lia)) as (r & E' & Hr & Hz & Hm).
  rewrite E in E'. injection E' as ->. rewrite take_ge in Hz, Hm by lia. exists r. auto.
Qed.

Section Pass.
Context {V : Type} (dflt zero : V) (mul add : V -> V -> V) (ofInt : Z -> V) (encI : nat -> list N) (encV : V -> list N) (pick : gmap nat (ablock V) -> nat) (null0 : bool) (itmax t : nat).
Context (pick_fresh : forall h, h !! pick h = None) (HI : bytes_of 4 encI) (HV : bytes_of 8 encV).
Context (A B M : csr V) (Bc : csc V) (EA EB EM : list (nat * nat * Z)).
Context (Hco : compatible A B M) (HBc : wf_csc Bc) (Hsm : same_matrix B Bc) (HsA : sorted_rows A) (HsB : sorted_rows B) (HsM : sorted_rows M) (HsBc : sorted_cols Bc).
Context (PA : conv ofInt <$> EA ≡ₚ triples A) (PB : conv ofInt <$> EB ≡ₚ triples B) (PBc : conv ofInt <$> EB ≡ₚ triples_csc Bc) (PM : conv ofInt <$> EM ≡ₚ triples M).
Context (Hr : 1 <= rows A) (HN : (N.of_nat (rows A + 1) < 2 ^ 17)%N) (Hcb : (N.of_nat (cols B) < 2 ^ 24)%N) (Ht : 1 <= t) (Htn : (N.of_nat t < 2 ^ 30)%N).
Context (Hit : (intmax <= Z.of_nat itmax)%Z) (HW : length (meeting EA EB) + t <= itmax + 1) (Hnm : (N.of_nat (nnz M) < 2 ^ 31)%N).
Local Notation ANS := (answerA zero mul add ofInt EA EB EM (rows A) (cols B)).
Local Notation heap := (gmap nat (ablock V)).

Definition benchA (x : text * bool * bool) (b : abench V) : Prop :=
  a_label b = fst (fst x) /\ a_kind b <> KAssign /\ (exists R, a_prod b t 0 R) /\ forall R, a_prod b t 0 R -> ANS (snd (fst x)) (snd x) R.
Definition nohash_fits : Prop := (forall e, e ∈ EA -> snd (epos e) < cols B) /\ length (same_column EA EB) + t <= itmax + 1.
Definition mca_fits : Prop :=
  EA ≡ₚ EB /\ rows A = rows B /\ cols A = cols B /\ (forall e, e ∈ EA -> exists u, u ∈ EA /\ fst (epos u) = snd (epos e)) /\
  forall i, products_in EA EB i = 0 \/ 1 <= entries_in EM i <= products_in EA EB i.
Lemma benches_A k : k <= 10 -> (1 < k -> nohash_fits) -> (7 < k -> mca_fits) -> Forall2 benchA (take k all_lines) (take k (allBenches dflt zero mul add itmax A B M Bc)).
Proof.
  intros Hk Hnh Hmca. unfold allBenches, all_lines.
  destruct k as [|k]; [constructor|]. cbn [take]. constructor; [split; [reflexivity|split; [discriminate|]]; cbn [a_prod fst snd]; eapply call_spa; eassumption|].
  destruct k as [|k]; [constructor|]. cbn [take]. destruct (Hnh ltac:(lia)) as [Hn1 Hn2]. constructor; [split; [reflexivity|split; [discriminate|]]; cbn [a_prod fst snd]; eapply call_nohash; eassumption|].
  destruct k as [|k]; [constructor|]. cbn [take]. constructor; [split; [reflexivity|split; [discriminate|]]; cbn [a_prod fst snd]; eapply call_hash; eassumption|].
  destruct k as [|k]; [constructor|]. cbn [take]. constructor; [split; [reflexivity|split; [discriminate|]]; cbn [a_prod fst snd]; eapply call_wobin; eassumption|].
  destruct k as [|k]; [constructor|]. cbn [take]. constructor; [split; [reflexivity|split; [discriminate|]]; cbn [a_prod fst snd]; eapply call_heap; try eassumption; left; lia|].
  destruct k as [|k]; [constructor|]. cbn [take]. constructor; [split; [reflexivity|split; [discriminate|]]; cbn [a_prod fst snd]; eapply call_heap; try eassumption; left; lia|].
  destruct k as [|k]; [constructor|]. cbn [take]. constructor; [split; [reflexivity|split; [discriminate|]]; cbn [a_prod fst snd]; eapply call_heap; try eassumption; right; reflexivity|].
  destruct k as [|k]; [constructor|]. cbn [take]. destruct (Hmca ltac:(lia)) as (M1 & M2 & M3 & M4 & M5). constructor; [split; [reflexivity|split; [discriminate|]]; cbn [a_prod fst snd]; eapply call_mca; eassumption|].
  destruct k as [|k]; [constructor|]. cbn [take]. constructor; [split; [reflexivity|split; [discriminate|]]; cbn [a_prod fst snd]; eapply call_mca; eassumption|].
  destruct k as [|k]; [constructor|]. cbn [take]. constructor; [split; [reflexivity|split; [discriminate|]]; cbn [a_prod fst snd]; eapply call_mca; eassumption|].
  destruct k; [constructor|lia].
Qed.

(** ** One run *)
Context (fn : text) (flop niters c : nat) (Hn : (N.of_nat niters <= 2147483647)%N) (Hcnt : masked_count EA EB EM c).
Definition lineA (x : text * bool * bool) (l : aline) : Prop :=
  a_name l = fst (fst x) /\ a_threads l = t /\ a_file l = fn /\ a_flop l = flop /\ a_nnz l = c /\
  exists R, ANS (snd (fst x)) (snd x) R /\ is_checksum (mjoin (encV <$> values R)) (fst (a_check l)) /\ is_checksum (mjoin (encI <$> colids R)) (snd (a_check l)).
Definition costA (b : abench V) : nat := calls niters * (lost_result null0 (c =? 0) + lost_local null0 (a_kind b) t).
Lemma bench_none x b R : benchA x b -> a_prod b t 0 R -> RunSpec.shape R /\ rows R <> 0 /\ (nnz R =? 0) = (c =? 0).
Proof.
  intros (_ & _ & _ & Hall) HR. apply Hall in HR. destruct (answer_shape zero mul add ofInt A B EA EB EM Hr _ _ _ HR) as [S1 S2]. split; [exact S1|]. split; [exact S2|].
  rewrite (count_unique EA EB EM (nnz R) c); [reflexivity| |exact Hcnt]. eapply answer_count, HR.
Qed.
Lemma check_is R ck : RunSpec.shape R -> checksumA encI encV (nnz R) (colids R) (values R) = Ok ck ->
  is_checksum (mjoin (encV <$> values R)) (fst ck) /\ is_checksum (mjoin (encI <$> colids R)) (snd ck).
Proof.
  intros (_ & L2 & L3) E. unfold checksumA in E. destruct (calculateChecksum (mjoin (encV <$> values R)) _) as [v|] eqn:Ev; [|discriminate]. cbn [bind] in E.
  destruct (calculateChecksum (mjoin (encI <$> colids R)) _) as [i|] eqn:Ei; [|discriminate]. injection E as <-. cbn [fst snd]. rewrite <- L3 in Ev. rewrite <- L2 in Ei.
  split; eapply calc_is; eassumption.
Qed.
Lemma runA_line x b h : benchA x b ->
  (exists r, runA dflt encI encV pick null0 (Some fn) flop niters [t] b h r) /\
  forall r, runA dflt encI encV pick null0 (Some fn) flop niters [t] b h r -> exists h' ls, r = Ok (h', ls) /\ h ⊆ h' /\ (exists l, ls = [l] /\ lineA x l) /\ size h' = size h + costA b.
Proof.
  intros Hb. pose proof Hb as (Hl & Hk & Hex & Hall).
  assert (G : forall t' h, t' ∈ [t] -> (exists r, (fun t h r => exists r1, runOneA dflt encI encV pick null0 b (Some fn) flop niters t h r1 /\ r = (' (h, l) <- r1 ;; Ok (h, [l]))) t' h r) /\
    forall r, (fun t h r => exists r1, runOneA dflt encI encV pick null0 b (Some fn) flop niters t h r1 /\ r = (' (h, l) <- r1 ;; Ok (h, [l]))) t' h r ->
      exists h' ls, r = Ok (h', ls) /\ h ⊆ h' /\ (exists l, ls = [l] /\ lineA x l) /\ size h' = size h + costA b).
  { intros t' h' Hin. apply elem_of_list_singleton in Hin as ->.
    destruct (runOneA_ok dflt encI encV pick null0 pick_fresh ltac:(intros; apply HI) ltac:(intros; apply HV) b (Some fn) flop niters t (c =? 0) Hn Hk Hex (fun R HR => bench_none x b R Hb HR) h') as [[r0 Hr0] Hok].
    split; [eauto|]. intros r (r1 & Hr1 & ->). destruct (Hok r1 Hr1) as (h2 & R & ck & -> & HR & Hck & Hsub & Hsz). cbn [bind]. exists h2. eexists. split; [reflexivity|]. split; [exact Hsub|]. split; [|exact Hsz].
    eexists. split; [reflexivity|]. split; [exact Hl|]. split; [reflexivity|]. split; [reflexivity|]. split; [reflexivity|]. cbn [a_nnz a_check].
    split; [apply (count_unique EA EB EM); [eapply answer_count, Hall, HR|exact Hcnt]|]. exists R. split; [apply Hall, HR|]. apply check_is; [eapply bench_none; eassumption|exact Hck]. }
  destruct (seqA_ok _ (fun _ ls => exists l, ls = [l] /\ lineA x l) (fun _ => costA b) [t] G h) as [Hex' Hall']. split; [exact Hex'|].
  intros r Hr'. destruct (Hall' r Hr') as (h' & lss & -> & K1 & K2 & K3). inversion K2 as [|? ls ? lss' Hls Hnil]; subst. inversion Hnil; subst.
  exists h', (mjoin [ls]). split; [reflexivity|]. split; [exact K1|]. split; [|simpl in K3; lia]. destruct Hls as (l & -> & Hll). exists l. auto.
Qed.
Lemma pass_A bs xs h : Forall2 benchA xs bs ->
  (exists r, seqA (runA dflt encI encV pick null0 (Some fn) flop niters [t]) bs h r) /\
  forall r, seqA (runA dflt encI encV pick null0 (Some fn) flop niters [t]) bs h r -> exists h' ls, r = Ok (h', ls) /\ h ⊆ h' /\ Forall2 lineA xs ls /\ size h' = size h + sum_list (costA <$> bs).
Proof.
  intros HF. revert h. induction HF as [|x b xs bs Hb HF IH]; intros h.
  - split; [eexists; reflexivity|]. intros r ->. exists h, []. split; [reflexivity|]. split; [reflexivity|]. split; [constructor|simpl; lia].
  - destruct (runA_line x b h Hb) as [[r0 Hr0] Hall]. cbn [seqA]. split.
    + destruct (Hall r0 Hr0) as (h1 & ls & -> & _). destruct (IH h1) as [[r2 Hr2] _]. eexists. exists (Ok (h1, ls)). split; [exact Hr0|]. exists r2. split; [exact Hr2|reflexivity].
    + intros r (r1 & Hr1 & Hr'). destruct (Hall r1 Hr1) as (h1 & ls & -> & K1 & (l & -> & Kl) & K3). destruct Hr' as (r2 & Hr2 & ->).
      destruct (proj2 (IH h1) r2 Hr2) as (h2 & ls2 & -> & L1 & L2 & L3). cbn [bind]. exists h2, (l :: ls2). split; [reflexivity|]. split; [etransitivity; eassumption|].
      split; [constructor; assumption|]. rewrite fmap_cons. simpl. lia.
Qed.
Lemma passes_A bs xs n h : Forall2 benchA xs bs ->
  (exists r, seqA (fun _ : nat => seqA (runA dflt encI encV pick null0 (Some fn) flop niters [t]) bs) (seq 0 n) h r) /\
  forall r, seqA (fun _ : nat => seqA (runA dflt encI encV pick null0 (Some fn) flop niters [t]) bs) (seq 0 n) h r ->
    exists h' ls, r = Ok (h', ls) /\ h ⊆ h' /\ Forall2 lineA (mjoin (replicate n xs)) ls /\ size h' = size h + n * sum_list (costA <$> bs).
Proof.
  intros HF. destruct (seqA_ok (fun _ : nat => seqA (runA dflt encI encV pick null0 (Some fn) flop niters [t]) bs) (fun _ ls => Forall2 lineA xs ls) (fun _ => sum_list (costA <$> bs)) (seq 0 n) (fun _ h' _ => pass_A bs xs h' HF) h) as [Hex Hall].
  split; [exact Hex|]. intros r Hr'. destruct (Hall r Hr') as (h' & lss & -> & K1 & K2 & K3). exists h', (mjoin lss). split; [reflexivity|]. split; [exact K1|]. split.
  - clear -K2. revert K2. generalize 0 as a. revert lss. induction n as [|n IH]; intros lss a K; inversion K; subst; [constructor|]. cbn [replicate]. rewrite !mjoin_cons. apply Forall2_app; [assumption|]. eapply IH; eauto.
  - rewrite K3. f_equal. clear. generalize 0 as a. induction n as [|n IH]; intros a; [reflexivity|]. cbn [seq]. rewrite fmap_cons. simpl. rewrite IH. lia.
Qed.
Lemma cost_sum k : k <= 10 -> c <> 0 -> sum_list (costA <$> take k (allBenches dflt zero mul add itmax A B M Bc)) = calls niters * (k - 4).
Proof.
  intros Hk Hc. assert (HnM : nnz M <> 0).
  { intros E. destruct Hcnt as (P & _ & HP & <-). destruct P as [|[i j] P]; [contradiction|]. destruct (proj1 (HP (i, j)) ltac:(left)) as [Hm _].
    apply elem_of_list_fmap in Hm as (e & _ & He). pose proof (triplesV_length M (co_M _ _ _ Hco)) as L. rewrite fmap_length, <- (Permutation_length PM), fmap_length, E in L. destruct EM; [inversion He|discriminate]. }
  assert (HrM : rows M <> 0) by (rewrite (co_rows _ _ _ Hco); lia).
  destruct (Nat.eqb_spec c 0) as [|Hc']; [contradiction|]. assert (Hcost : forall b, costA b = calls niters * match a_kind b with KHeap => 1 | KNohash a b => if (b =? 0) || (a =? 0) then 3 else 0 | _ => 0 end \/ exists x y, a_kind b = KNohash x y /\ ((y =? 0) || (x =? 0)) = true).
  { intros b. unfold costA, lost_result, lost_local. destruct (Nat.eqb_spec c 0) as [|_]; [contradiction|]. cbn [andb]. destruct (a_kind b) as [| | |x y| |]; try (left; reflexivity).
    - destruct ((y =? 0) || (x =? 0)) eqn:E; [right; eauto|left]. apply orb_false_iff in E as [-> ->]. reflexivity.
    - left. destruct (Nat.eqb_spec t 0); [lia|]. rewrite andb_false_r. reflexivity. }
  assert (Hc2 : forall b, b ∈ allBenches dflt zero mul add itmax A B M Bc -> costA b = calls niters * match a_kind b with KHeap => 1 | _ => 0 end).
  { intros b Hb. assert (Hkd : a_kind b = KOver \/ a_kind b = KHeap \/ a_kind b = KNohash (rows M) (nnz M)).
    { unfold allBenches in Hb. repeat (apply elem_of_cons in Hb as [->|Hb]; [auto|]). inversion Hb. }
    unfold costA, lost_result, lost_local. destruct (Nat.eqb_spec c 0) as [|_]; [contradiction|]. cbn [andb]. destruct Hkd as [-> | [-> | ->]]; [reflexivity| |].
    - destruct (Nat.eqb_spec t 0); [lia|]. rewrite andb_false_r. reflexivity.
    - destruct (Nat.eqb_spec (nnz M) 0); [contradiction|]. destruct (Nat.eqb_spec (rows M) 0); [contradiction|]. reflexivity. }
  clear Hcost. rewrite (sum_ext costA (fun b => calls niters * match a_kind b with KHeap => 1 | _ => 0 end)); [|intros b Hb; apply Hc2; eapply elem_of_submseteq; [exact Hb|apply sublist_submseteq, sublist_take]].
  unfold allBenches. clear -Hk. do 11 (destruct k as [|k]; [cbn [take]; rewrite ?fmap_cons; simpl; lia|]). lia.
Qed.
End Pass.

(** For all files with integral values whose sizes match: the program ends.  In each pass it prints the lines of [all_lines] in order,
    each with the file name, the number of threads, twice the number of multiplications and the number of positions of the mask with a
    product; the checksums are those of the values and the column indices of a matrix that holds the masked product.  Blocks are lost
    only by HeapSpGEMM, one in each call.  Limits: rows + 1 < 2^17 (findings of C44, C45, C47), multiplications + threads and the pairs in the same
    column + threads at most 2^31 (the latter, and column indices of A below the number of columns of B, is what innerSpGEMM_nohash needs);
    the last three products need equal first files and room in the mask (findings of C48), so the theorem speaks of the first [k]. *)
Theorem C74_report_partial :
  forall V (dflt zero : V) (mul add : V -> V -> V) (ofInt : Z -> V) (encI : nat -> list N) (encV : V -> list N) (pick : gmap nat (ablock V) -> nat) null0 ltV stdsort itmax k (dir fn : text) fA fB fM tA tB tM t
    (inner outer : option nat) (h : gmap nat (ablock V)),
  (forall h, h !! pick h = None) -> bytes_of 4 encI -> bytes_of 8 encV -> sort_contract ltV stdsort -> (intmax <= Z.of_nat itmax)%Z ->
  good_file fA tA -> good_file fB tB -> good_file fM tM -> "/"%char ∉ fn -> 
  mm_cols fA = mm_rows fB -> mm_rows fM = mm_rows fA -> mm_cols fM = mm_cols fB ->
  1 <= mm_rows fA -> (N.of_nat (mm_rows fA + 1) < 2 ^ 17)%N -> (N.of_nat (mm_cols fB) < 2 ^ 24)%N -> 1 <= t -> (N.of_nat t < 2 ^ 30)%N ->
  let EA := means fA in let EB := means fB in let EM := means fM in
  length (meeting EA EB) + t <= itmax + 1 ->
  (1 < k -> (forall e, e ∈ EA -> snd (epos e) < mm_cols fB) /\ length (same_column EA EB) + t <= itmax + 1) ->
  k <= 10 -> (7 < k -> EA ≡ₚ EB /\ mm_rows fA = mm_rows fB /\ mm_cols fA = mm_cols fB /\ (forall e, e ∈ EA -> exists u, u ∈ EA /\ fst (epos u) = snd (epos e)) /\
    forall i, products_in EA EB i = 0 \/ 1 <= entries_in EM i <= products_in EA EB i) ->
  (N.of_nat (default 1%nat inner) <= 2147483647)%N ->
  let main := allMain dflt zero mul add ofInt encI encV pick null0 stdsort k itmax (dir ++ "/"%char :: fn) (Some tA) (Some tB) (Some tM) (Some t) inner outer h in
  (exists r, main r) /\
  forall r, main r -> exists h' out c, r = Ok (h', out) /\ h ⊆ h' /\ masked_count EA EB EM c /\
    (c <> 0 -> size h' = size h + default 1 outer * ((k - 4) * match inner with None | Some 1 => 1 | Some n => n + 1 end)) /\
    Forall2 (fun x l => a_name l = fst (fst x) /\ a_threads l = t /\ a_file l = fn /\ a_flop l = 2 * length (meeting EA EB) /\ a_nnz l = c /\
       exists R, answerA zero mul add ofInt EA EB EM (mm_rows fA) (mm_cols fB) (snd (fst x)) (snd x) R /\
         is_checksum (mjoin (encV <$> values R)) (fst (a_check l)) /\ is_checksum (mjoin (encI <$> colids R)) (snd (a_check l)))
      (mjoin (replicate (default 1 outer) (take k all_lines))) out.
Proof.
  intros V dflt zero mul add ofInt encI encV pick null0 ltV stdsort itmax k dir fn fA fB fM tA tB tM t inner outer h Hp HI HV Hsort Hit
    (WA1 & WA2 & WA3 & WA4 & WA5 & WA6) (WB1 & WB2 & WB3 & WB4 & WB5 & WB6) (WM1 & WM2 & WM3 & WM4 & WM5 & WM6) Hfn D1 D2 D3 Hr HN Hcb Ht Htn EA EB EM HW Hnh Hk Hmca Hn main.
  destruct (input_okA dflt ofInt ltV stdsort itmax fA tA Hsort Hit WA1 WA2 WA3 WA4 WA5 WA6) as (XA & A & IA & XA1 & XA2 & XA3 & XA4 & A1 & A2 & A3 & A4 & A5 & A6 & A7 & A8).
  destruct (input_okA dflt ofInt ltV stdsort itmax fB tB Hsort Hit WB1 WB2 WB3 WB4 WB5 WB6) as (XB & B & IB & XB1 & XB2 & XB3 & XB4 & B1 & B2 & B3 & B4 & B5 & B6 & B7 & B8).
  destruct (input_okA dflt ofInt ltV stdsort itmax fM tM Hsort Hit WM1 WM2 WM3 WM4 WM5 WM6) as (XM & M & IM & XM1 & XM2 & XM3 & XM4 & M1 & M2 & M3 & M4 & M5 & M6 & M7 & M8).
  fold EA in A6, A7. fold EB in B6, B7. fold EM in M6, M7.
  assert (Hco : compatible A B M) by (constructor; auto; congruence).
  rewrite <- A2 in Hr, HN. rewrite <- B3 in Hcb.
  assert (Hnh' : 1 < k -> nohash_fits itmax t B EA EB) by (intros H; unfold nohash_fits; rewrite B3; apply Hnh, H).
  assert (Hmca' : 7 < k -> mca_fits A B EA EB EM) by (intros H; unfold mca_fits; rewrite A2, A3, B2, B3; apply Hmca, H).
  pose proof (benches_A dflt zero mul add ofInt itmax t A B M XB EA EB EM Hco XB1 B5 A4 B4 M4 XB4 A6 B6 B7 M6 Hr HN Hcb Ht Htn Hit HW M8 k Hk Hnh' Hmca') as HB.
  assert (Hflop : forall r, getFlopCsc_always XA XB r <-> r = 2 * length (meeting EA EB)).
  { intros r. rewrite (C58_flop_csc XA XB XA1 XB1 ltac:(congruence)). rewrite (mult_file ofInt (triples_csc XA) (triples_csc XB) EA EB A7 B7). reflexivity. }
  assert (Hfile : getFileNameC (dir ++ "/"%char :: fn) = Ok fn) by (apply C57_file_name_c_partial, Hfn).
  (* the number of positions *)
  assert (Hcnt : exists c, masked_count EA EB EM c).
  { exists (length (remove_dups (filter (fun x => x ∈ step_pos <$> meeting EA EB) (epos <$> EM)))). eexists. split; [apply NoDup_remove_dups|]. split; [|reflexivity].
    intros x. rewrite elem_of_remove_dups, elem_of_list_filter. tauto. }
  destruct Hcnt as [c Hcnt].
  destruct (passes_A dflt zero mul add ofInt encI encV pick null0 itmax t Hp HI HV A B M EA EB EM Hr HN Hcb Ht Htn HW M8 fn (2 * length (meeting EA EB)) (default 1 inner) c Hn Hcnt _ _ (default 1 outer) h HB) as [[r0 Hr0] Hall].
  unfold main, allMain. rewrite Hfile. cbn [bind]. split.
  - exists r0, (Ok (XA, A)), (Ok (XB, B)), (Ok (XM, M)). split; [apply IA; reflexivity|]. split; [apply IB; reflexivity|]. split; [apply IM; reflexivity|]. cbn [bind].
    exists (2 * length (meeting EA EB)). split; [apply Hflop; reflexivity|exact Hr0].
  - intros r (rA & rB & rM & H1 & H2 & H3 & Hm). apply IA in H1. apply IB in H2. apply IM in H3. subst rA rB rM. cbn [bind] in Hm. destruct Hm as (flop & Hf & Hm). apply Hflop in Hf. subst flop.
    destruct (Hall r Hm) as (h' & out & -> & K1 & K2 & K3). exists h', out, c. split; [reflexivity|]. split; [exact K1|]. split; [exact Hcnt|]. split.
    + intros Hc. rewrite K3, (cost_sum dflt zero mul add ofInt null0 itmax t A B M XB EA EB EM Hco M6 Hr HN Hcb Ht Htn HW M8 (default 1 inner) c Hn Hcnt k Hk Hc). f_equal. f_equal. rewrite (Nat.mul_comm (k - 4)). f_equal. unfold calls.
      destruct inner as [[|[|n]]|]; reflexivity.
    + eapply Forall2_impl; [exact K2|]. intros x l. unfold lineA. rewrite A2, B3. auto.
Qed.
Print Assumptions C74_report_partial.

(** The complete graph on four vertices as all three files, 7 threads: 36 multiplications, 12 positions, 10 lines, 6 blocks lost. *)
Lemma exFile_good t : file_text exFile t -> good_file exFile t.
Proof.
  intros Ht. split; [exact exFile_wf|]. split; [discriminate|]. split; [repeat constructor|]. split; [reflexivity|]. split; [|exact Ht].
  apply (bool_decide_unpack _). vm_compute. exact Logic.I.
Qed.
Example C74_example : forall encI encV pick null0 ltV stdsort itmax tA tB tM (h : gmap nat (ablock Z)),
  (forall h, h !! pick h = None) -> bytes_of 4 encI -> bytes_of 8 encV -> sort_contract ltV stdsort -> (intmax <= Z.of_nat itmax)%Z -> file_text exFile tA -> file_text exFile tB -> file_text exFile tM ->
  let main := allMain 0%Z 0%Z Z.mul Z.add (fun x => x) encI encV pick null0 stdsort 10 itmax (txt "data/K4.mtx") (Some tA) (Some tB) (Some tM) (Some 7) None None h in
  (exists r, main r) /\ forall r, main r -> exists h' out, r = Ok (h', out) /\ size h' = size h + 6 /\ length out = 10 /\
    forall l, l ∈ out -> a_threads l = 7 /\ a_file l = txt "K4.mtx" /\ a_flop l = 72 /\ a_nnz l = 12.
Proof.
  intros encI encV pick null0 ltV stdsort itmax tA tB tM h Hp HI HV Hs Hit HA HB HM main.
  assert (Hi : 100 <= itmax) by (unfold intmax in Hit; lia).
  assert (Em : length (meeting (means exFile) (means exFile)) = 36) by (vm_compute; reflexivity).
  assert (Es : length (same_column (means exFile) (means exFile)) = 36) by (vm_compute; reflexivity).
  assert (Ep : epos <$> means exFile = [(1, 0); (0, 1); (2, 0); (0, 2); (3, 0); (0, 3); (2, 1); (1, 2); (3, 1); (1, 3); (3, 2); (2, 3)]) by (vm_compute; reflexivity).
  assert (Hpos : Forall (fun p : nat * nat => fst p < 4 /\ snd p < 4) (epos <$> means exFile)) by (rewrite Ep; repeat constructor).
  assert (Hc : masked_count (means exFile) (means exFile) (means exFile) 12).
  { exists (epos <$> means exFile). split; [apply (bool_decide_unpack _); vm_compute; exact Logic.I|]. split; [|vm_compute; reflexivity]. intros x. split; [|tauto]. intros Hx. split; [exact Hx|].
    assert (F : Forall (fun x => x ∈ step_pos <$> meeting (means exFile) (means exFile)) (epos <$> means exFile)) by (apply (bool_decide_unpack _); vm_compute; exact Logic.I).
    rewrite Forall_forall in F. apply F, Hx. }
  destruct (C74_report_partial Z 0%Z 0%Z Z.mul Z.add (fun x => x) encI encV pick null0 ltV stdsort itmax 10 (txt "data") (txt "K4.mtx") exFile exFile exFile tA tB tM 7 None None h Hp HI HV Hs Hit
    (exFile_good _ HA) (exFile_good _ HB) (exFile_good _ HM)) as [Hex Hall].
  - apply (bool_decide_unpack _). vm_compute. exact Logic.I.
  - reflexivity.
  - reflexivity.
  - reflexivity.
  - cbn [exFile mm_rows]. lia.
  - reflexivity.
  - reflexivity.
  - lia.
  - reflexivity.
  - rewrite Em. lia.
  - intros _. rewrite Es. split; [|lia]. intros e He. rewrite Forall_forall in Hpos. apply (Hpos (epos e)). apply elem_of_list_fmap. eauto.
  - lia.
  - intros _. split; [reflexivity|]. split; [reflexivity|]. split; [reflexivity|]. split.
    + assert (F : Forall (fun e : nat * nat * Z => Exists (fun u : nat * nat * Z => fst (epos u) = snd (epos e)) (means exFile)) (means exFile)) by (apply (bool_decide_unpack _); vm_compute; exact Logic.I).
      intros e He. rewrite Forall_forall in F. apply Exists_exists. apply F, He.
    + intros i. do 4 (destruct i as [|i]; [right; vm_compute; lia|]). left. vm_compute. reflexivity.
  - discriminate.
  - split; [exact Hex|]. intros r Hr. destruct (Hall r Hr) as (h' & out & c & -> & _ & Hcc & Hsz & HF). assert (c = 12) as -> by (eapply count_unique; eassumption).
    exists h', out. split; [reflexivity|]. split; [rewrite Hsz by lia; reflexivity|]. pose proof (Forall2_length _ _ _ HF) as L. split; [rewrite <- L; reflexivity|].
    intros l Hl. apply elem_of_list_lookup in Hl as [n Hn]. destruct (Forall2_lookup_r _ _ _ _ _ HF Hn) as (x & _ & H1 & H2 & H3 & H4 & H5 & _). rewrite H2, H3, H4, H5, Em. auto.
Qed.

(** If addition is associative and commutative and zero is neutral, all products whose rows are in order give the same matrix, so their
    lines have the same checksums.  (Addition of doubles is not associative, so the first checksum of these lines may differ there.) *)
Section Agree.
Context {V : Type} (add : V -> V -> V) (Hassoc : forall x y z, add x (add y z) = add (add x y) z) (Hcomm : forall x y, add x y = add y x).
Definition oadd (o1 o2 : option V) : option V := match o1, o2 with Some x, Some y => Some (add x y) | Some x, None => Some x | None, o => o end.
Fixpoint total (l : list V) : option V := match l with [] => None | x :: l => oadd (Some x) (total l) end.
Lemma total_app l1 l2 : total (l1 ++ l2) = oadd (total l1) (total l2).
Proof. induction l1 as [|x l1 IH]; [reflexivity|]. cbn [app total]. rewrite IH. destruct (total l1), (total l2); cbn; rewrite ?Hassoc; reflexivity. Qed.
Lemma total_perm l l' : l ≡ₚ l' -> total l = total l'.
Proof.
  induction 1 as [|x l l' _ IH|x y l|l1 l2 l3 _ IH1 _ IH2]; [reflexivity| | |congruence].
  - cbn [total]. rewrite IH. reflexivity.
  - cbn [total]. destruct (total l); cbn; [rewrite !Hassoc, (Hcomm x y)|rewrite (Hcomm x y)]; reflexivity.
Qed.
Lemma sums_total l v : sums add l v -> total l = Some v.
Proof. induction 1 as [|l1 l2 l x y _ IH1 _ IH2 P]; [reflexivity|]. rewrite (total_perm _ _ P), total_app, IH1, IH2. reflexivity. Qed.
End Agree.
Theorem C74_ordered_products_agree :
  forall V (zero : V) (mul add : V -> V -> V) (ofInt : Z -> V) EA EB EM m n z z' (R R' : csr V),
  (forall x y z, add x (add y z) = add (add x y) z) -> (forall x y, add x y = add y x) -> (forall x, add zero x = x) ->
  answerA zero mul add ofInt EA EB EM m n true z R -> answerA zero mul add ofInt EA EB EM m n true z' R' -> R = R'.
Proof.
  intros V zero mul add ofInt EA EB EM m n z z' R R' Ha Hc Hz (W1 & D1 & D2 & S1 & K1 & V1) (W2 & D3 & D4 & S2 & K2 & V2).
  assert (Hdrop : forall (b : bool) l v, sums add ((if b then [zero] else []) ++ l) v -> oadd add (Some zero) (total add l) = Some v).
  { intros b l v H. apply (sums_total add Ha Hc) in H. rewrite (total_app add Ha) in H. destruct b; cbn in *; [exact H|]. rewrite H. cbn. rewrite Hz. reflexivity. }
  assert (Hkey : forall i, i < m -> row_cols R i = row_cols R' i).
  { intros i Hi. apply HeapStatements.sorted_lt_unique; [apply S1; auto|apply S2; auto|]. intros j. split; intros Hj; [apply (K2 i j)|apply (K1 i j)]; [apply (K1 i j)|apply (K2 i j)]; auto. }
  apply wf_ext; [exact W1|exact W2|congruence|congruence|]. intros i Hi. rewrite D1 in Hi.
  apply keys_values; [apply S2, Hi|apply Hkey, Hi|]. intros [j v] Hv.
  assert (Hj : j ∈ row_cols R' i) by (rewrite <- Hkey by exact Hi; apply elem_of_list_fmap; exists (j, v); auto).
  apply elem_of_list_fmap in Hj as ([j' v'] & E & Hv'). cbn in E. subst j'. pose proof (V1 i j v Hi Hv) as Q1. pose proof (V2 i j v' Hi Hv') as Q2. apply Hdrop in Q1, Q2. rewrite Q1 in Q2. injection Q2 as ->. exact Hv'.
Qed.
Print Assumptions C74_ordered_products_agree.
(** The product of the two small files: one entry, 5 times 9. *)
Example C74_agree_example : answerA 0%Z Z.mul Z.add (fun x => x) [(0, 1, 5%Z)] [(0, 0, 7%Z); (1, 1, 9%Z)] [(0, 1, 1%Z)] 1 2 true true (mkCsr 1 2 1 [0; 1] [1] [45%Z]) /\
  answerA 0%Z Z.mul Z.add (fun x => x) [(0, 1, 5%Z)] [(0, 0, 7%Z); (1, 1, 9%Z)] [(0, 1, 1%Z)] 1 2 true false (mkCsr 1 2 1 [0; 1] [1] [45%Z]).
Proof.
  assert (W : wf (mkCsr 1 2 1 [0; 1] [1] [45%Z])) by (prove_wf).
  assert (E : row_entries (mkCsr 1 2 1 [0; 1] [1] [45%Z]) 0 = [(1, 45%Z)]) by reflexivity.
  assert (P : products_at Z.mul (fun x => x) [(0, 1, 5%Z)] [(0, 0, 7%Z); (1, 1, 9%Z)] 0 1 = [45%Z]) by (vm_compute; reflexivity).
  assert (F1 : epos <$> [(0, 1, 1%Z)] = [(0, 1)]) by reflexivity. assert (F2 : step_pos <$> meeting [(0, 1, 5%Z)] [(0, 0, 7%Z); (1, 1, 9%Z)] = [(0, 1)]) by (vm_compute; reflexivity).
  assert (G : forall i j, i < 1 /\ j ∈ row_cols (mkCsr 1 2 1 [0; 1] [1] [45%Z]) i <-> (i, j) ∈ epos <$> [(0, 1, 1%Z)] /\ (i, j) ∈ step_pos <$> meeting [(0, 1, 5%Z)] [(0, 0, 7%Z); (1, 1, 9%Z)]).
  { intros i j. rewrite F1, F2, elem_of_list_singleton. split.
    - intros [Hi Hj]. assert (i = 0) as -> by lia. unfold row_cols in Hj. rewrite E in Hj. apply elem_of_list_singleton in Hj. subst j. auto.
    - intros [[= -> ->] _]. split; [lia|]. unfold row_cols. rewrite E. left. }
  assert (S : forall i, i < 1 -> NoDup (row_cols (mkCsr 1 2 1 [0; 1] [1] [45%Z]) i) /\ (true = true -> StronglySorted lt (row_cols (mkCsr 1 2 1 [0; 1] [1] [45%Z]) i))).
  { intros i Hi. assert (i = 0) as -> by lia. unfold row_cols. rewrite E. split; [apply NoDup_singleton|intros _; repeat constructor]. }
  split; (split; [exact W|]; split; [reflexivity|]; split; [reflexivity|]; split; [exact S|]; split; [exact G|]); intros i j v Hi Hv; assert (i = 0) as -> by lia; rewrite E in Hv; apply elem_of_list_singleton in Hv; injection Hv as -> ->; rewrite P.
  - apply (sums_add Z.add [0%Z] [45%Z] _ 0%Z 45%Z); [constructor|constructor|reflexivity].
  - constructor.
Qed.

(** ** Findings *)
(** Finding: a path without a slash is read past its end (C57). *)
Theorem C74_no_slash_refuted : forall V (dflt zero : V) mul add ofInt encI encV pick null0 stdsort k itmax path fileA fileB fileM t inner outer h r,
  "/"%char ∉ path -> allMain dflt zero mul add ofInt encI encV pick null0 stdsort k itmax path fileA fileB fileM (Some t) inner outer h r <-> r = Err OutOfBounds.
Proof. intros. unfold allMain. rewrite C57_file_name_c_refuted by assumption. reflexivity. Qed.
Print Assumptions C74_no_slash_refuted.
Example C74_no_slash_example : "/"%char ∉ txt "A.mtx".
Proof. apply (bool_decide_unpack _). vm_compute. exact Logic.I. Qed.

(** Finding: without a number of threads (argc is 4) the file name is a null pointer when the first line is printed.  This holds of all good files. *)
Theorem C74_no_thread_count_refuted :
  forall V (dflt zero : V) (mul add : V -> V -> V) (ofInt : Z -> V) (encI : nat -> list N) (encV : V -> list N) (pick : gmap nat (ablock V) -> nat) null0 ltV stdsort itmax k path fA fB fM tA tB tM
    (inner outer : option nat) (h : gmap nat (ablock V)),
  (forall h, h !! pick h = None) -> bytes_of 4 encI -> bytes_of 8 encV -> sort_contract ltV stdsort -> (intmax <= Z.of_nat itmax)%Z ->
  good_file fA tA -> good_file fB tB -> good_file fM tM ->
  mm_cols fA = mm_rows fB -> mm_rows fM = mm_rows fA -> mm_cols fM = mm_cols fB ->
  1 <= mm_rows fA -> (N.of_nat (mm_rows fA + 1) < 2 ^ 17)%N -> (N.of_nat (mm_cols fB) < 2 ^ 24)%N ->
  length (meeting (means fA) (means fB)) + 4 <= itmax + 1 -> 1 <= k -> 1 <= default 1 outer -> (N.of_nat (default 1%nat inner) <= 2147483647)%N ->
  let main := allMain dflt zero mul add ofInt encI encV pick null0 stdsort k itmax path (Some tA) (Some tB) (Some tM) None inner outer h in
  (exists r, main r) /\ forall r, main r -> r = Err OutOfBounds.
Proof.
  intros V dflt zero mul add ofInt encI encV pick null0 ltV stdsort itmax k path fA fB fM tA tB tM inner outer h Hp HI HV Hsort Hit
    (WA1 & WA2 & WA3 & WA4 & WA5 & WA6) (WB1 & WB2 & WB3 & WB4 & WB5 & WB6) (WM1 & WM2 & WM3 & WM4 & WM5 & WM6) D1 D2 D3 Hr HN Hcb HW Hk Ho Hn main.
  destruct (input_okA dflt ofInt ltV stdsort itmax fA tA Hsort Hit WA1 WA2 WA3 WA4 WA5 WA6) as (XA & A & IA & XA1 & XA2 & XA3 & XA4 & A1 & A2 & A3 & A4 & A5 & A6 & A7 & A8).
  destruct (input_okA dflt ofInt ltV stdsort itmax fB tB Hsort Hit WB1 WB2 WB3 WB4 WB5 WB6) as (XB & B & IB & XB1 & XB2 & XB3 & XB4 & B1 & B2 & B3 & B4 & B5 & B6 & B7 & B8).
  destruct (input_okA dflt ofInt ltV stdsort itmax fM tM Hsort Hit WM1 WM2 WM3 WM4 WM5 WM6) as (XM & M & IM & XM1 & XM2 & XM3 & XM4 & M1 & M2 & M3 & M4 & M5 & M6 & M7 & M8).
  assert (Hco : compatible A B M) by (constructor; auto; congruence).
  rewrite <- A2 in Hr, HN. rewrite <- B3 in Hcb.
  assert (Hcnt : exists c, masked_count (means fA) (means fB) (means fM) c).
  { exists (length (remove_dups (filter (fun x => x ∈ step_pos <$> meeting (means fA) (means fB)) (epos <$> means fM)))). eexists. split; [apply NoDup_remove_dups|]. split; [|reflexivity].
    intros x. rewrite elem_of_remove_dups, elem_of_list_filter. tauto. }
  destruct Hcnt as [c Hcnt].
  pose proof (benches_A dflt zero mul add ofInt itmax 4 A B M XB (means fA) (means fB) (means fM) Hco XB1 B5 A4 B4 M4 XB4 A6 B6 B7 M6 Hr HN Hcb ltac:(lia) ltac:(reflexivity) Hit HW M8 1 ltac:(lia) ltac:(lia) ltac:(lia)) as HB.
  set (b := mkABench (str "MaskedSPASpGEMM CSR") KOver (fun t _ => allSpa dflt mul add itmax A B M t)) in *.
  assert (Hb : benchA zero mul add ofInt 4 A B (means fA) (means fB) (means fM) (txt "MaskedSPASpGEMM CSR", false, false) b) by (inversion HB; assumption).
  assert (E : exists bs, take k (allBenches dflt zero mul add itmax A B M XB) = b :: bs) by (destruct k as [|k]; [lia|]; eexists; reflexivity). destruct E as [bs E].
  assert (Hf : forall r, getFlopCsc_always XA XB r <-> r = 2 * length (meeting (means fA) (means fB))).
  { intros r. rewrite (C58_flop_csc XA XB XA1 XB1 ltac:(congruence)). rewrite (mult_file ofInt (triples_csc XA) (triples_csc XB) (means fA) (means fB) A7 B7). reflexivity. }
  set (flop := 2 * length (meeting (means fA) (means fB))) in *.
  assert (H1 : forall h, (exists r, runA dflt encI encV pick null0 None flop (default 1 inner) [4; 8; 16; 32; 64] b h r) /\ forall r, runA dflt encI encV pick null0 None flop (default 1 inner) [4; 8; 16; 32; 64] b h r -> r = Err OutOfBounds).
  { intros h'. pose proof Hb as (_ & Hkd & Hex & _).
    destruct (runOneA_ok dflt encI encV pick null0 Hp ltac:(intros; apply HI) ltac:(intros; apply HV) b None flop (default 1 inner) 4 (c =? 0) Hn Hkd Hex) with (h := h') as [[r0 Hr0] Hok].
    { intros R HR. eapply (bench_none zero mul add ofInt); try eassumption; try lia; reflexivity. }
    unfold runA. apply seqA_first.
    - eauto.
    - intros r (r1 & Hr1 & ->). apply Hok in Hr1. cbn in Hr1. subst r1. reflexivity. }
  assert (H2 : forall h, (exists r, seqA (runA dflt encI encV pick null0 None flop (default 1 inner) [4; 8; 16; 32; 64]) (b :: bs) h r) /\ forall r, seqA (runA dflt encI encV pick null0 None flop (default 1 inner) [4; 8; 16; 32; 64]) (b :: bs) h r -> r = Err OutOfBounds).
  { intros h'. apply seqA_first; apply H1. }
  assert (H3 : (exists r, seqA (fun _ : nat => seqA (runA dflt encI encV pick null0 None flop (default 1 inner) [4; 8; 16; 32; 64]) (b :: bs)) (seq 0 (default 1 outer)) h r) /\
    forall r, seqA (fun _ : nat => seqA (runA dflt encI encV pick null0 None flop (default 1 inner) [4; 8; 16; 32; 64]) (b :: bs)) (seq 0 (default 1 outer)) h r -> r = Err OutOfBounds).
  { destruct (default 1 outer) as [|n]; [lia|]. cbn [seq]. apply seqA_first; apply H2. }
  destruct H3 as [[r0 Hr0] Hall]. unfold main, allMain. cbn [bind]. split.
  - exists r0, (Ok (XA, A)), (Ok (XB, B)), (Ok (XM, M)). split; [apply IA; reflexivity|]. split; [apply IB; reflexivity|]. split; [apply IM; reflexivity|]. cbn [bind].
    exists flop. split; [apply Hf; reflexivity|]. rewrite E. exact Hr0.
  - intros r (rA & rB & rM & K1 & K2 & K3 & Hm). apply IA in K1. apply IB in K2. apply IM in K3. subst rA rB rM. cbn [bind] in Hm. destruct Hm as (fl & Hfl & Hm). apply Hf in Hfl. subst fl. rewrite E in Hm. apply Hall, Hm.
Qed.
Print Assumptions C74_no_thread_count_refuted.

(** Finding: the program (all ten products) never ends well if an entry of A lies in a column k such that the rows of B above row k hold
    at least as many entries as A (C48, MCA_v1). *)
Lemma rows_above {V} (ofInt : Z -> V) (B : csr V) EB k : wf B -> conv ofInt <$> EB ≡ₚ triples B -> k <= rows B -> rowptr B !! k = Some (length (filter (fun u => fst (epos u) < k) EB)).
Proof.
  intros HB PB Hk. rewrite (wf_pre B k HB Hk). f_equal.
  assert (E : length (filter (fun u : nat * nat * Z => fst (epos u) < k) EB) = length (filter (fun u : nat * nat * V => fst (fst u) < k) (triples B))).
  { rewrite <- PB, filter_fmap_in, fmap_length. reflexivity. }
  rewrite E. unfold triples. replace (rows B) with (k + (rows B - k)) by lia. rewrite seq_app, fmap_app, ConcProofs.mjoin_app, filter_app, app_length.
  assert (F : forall a n, a + n <= k -> length (filter (fun u : nat * nat * V => fst (fst u) < k) (mjoin ((fun i => (fun e => (i, fst e, snd e)) <$> row_entries B i) <$> seq a n))) = sum_list ((fun i => length (row_entries B i)) <$> seq a n)).
  { intros a n. revert a. induction n as [|n IH]; intros a Ha; [reflexivity|]. cbn [seq]. rewrite !fmap_cons, mjoin_cons, filter_app, app_length, IH by lia. simpl. f_equal. rewrite filter_fmap_in, fmap_length. f_equal.
    clear -Ha. induction (row_entries B a) as [|e l IH]; [reflexivity|]. rewrite filter_cons_True by (simpl; lia). rewrite IH. reflexivity. }
  assert (G : forall a n, k <= a -> length (filter (fun u : nat * nat * V => fst (fst u) < k) (mjoin ((fun i => (fun e => (i, fst e, snd e)) <$> row_entries B i) <$> seq a n))) = 0).
  { intros a n. revert a. induction n as [|n IH]; intros a Ha; [reflexivity|]. cbn [seq]. rewrite !fmap_cons, mjoin_cons, filter_app, app_length, IH by lia. rewrite filter_fmap_in, fmap_length.
    clear -Ha. induction (row_entries B a) as [|e l IH]; [reflexivity|]. rewrite filter_cons_False by (simpl; lia). exact IH. }
  rewrite F, G by lia. rewrite Nat.add_0_r. reflexivity.
Qed.
Lemma runOneA_called {V} (dflt : V) encI encV pick null0 (b : abench V) fn flop niters t h x : runOneA dflt encI encV pick null0 b fn flop niters t h (Ok x) -> exists nz R, a_prod b t nz R.
Proof.
  intros (r1 & Hr1 & Hr). destruct (Nat.eqb_spec niters 1) as [->|_].
  - subst r1. destruct Hr as (r2 & Hr2 & Hr). unfold intLoop in Hr2. change (N.of_nat 1 <=? 2147483647)%N with true in Hr2. cbn iota in Hr2. inversion Hr2 as [|? ? e0 Hb|? ? s1 ? Hb _]; subst; [discriminate|].
    unfold measured in Hb. destruct (makeEmpty _ _) as [s0|]; [|discriminate]. destruct Hb as (R & HR & _). eauto.
  - destruct r1 as [s|e]; [|discriminate]. destruct Hr1 as (R & HR & _). eauto.
Qed.
Theorem C74_mca_refuted :
  forall V (dflt zero : V) (mul add : V -> V -> V) (ofInt : Z -> V) (encI : nat -> list N) (encV : V -> list N) (pick : gmap nat (ablock V) -> nat) null0 ltV stdsort itmax k path fA fB fM tA tB tM t
    (inner outer : option nat) (h : gmap nat (ablock V)) e,
  sort_contract ltV stdsort -> (intmax <= Z.of_nat itmax)%Z -> good_file fA tA -> good_file fB tB -> good_file fM tM -> mm_cols fA = mm_rows fB ->
  8 <= k -> 1 <= t -> 1 <= default 1 outer ->
  e ∈ means fA -> length (means fA) <= length (filter (fun u => fst (epos u) < snd (epos e)) (means fB)) ->
  ~ exists y, allMain dflt zero mul add ofInt encI encV pick null0 stdsort k itmax path (Some tA) (Some tB) (Some tM) (Some t) inner outer h (Ok y).
Proof.
  intros V dflt zero mul add ofInt encI encV pick null0 ltV stdsort itmax k path fA fB fM tA tB tM t inner outer h e Hsort Hit
    (WA1 & WA2 & WA3 & WA4 & WA5 & WA6) (WB1 & WB2 & WB3 & WB4 & WB5 & WB6) (WM1 & WM2 & WM3 & WM4 & WM5 & WM6) D1 Hk Ht Ho He Hlen [y Hy].
  destruct (input_okA dflt ofInt ltV stdsort itmax fA tA Hsort Hit WA1 WA2 WA3 WA4 WA5 WA6) as (XA & A & IA & XA1 & XA2 & XA3 & XA4 & A1 & A2 & A3 & A4 & A5 & A6 & A7 & A8).
  destruct (input_okA dflt ofInt ltV stdsort itmax fB tB Hsort Hit WB1 WB2 WB3 WB4 WB5 WB6) as (XB & B & IB & XB1 & XB2 & XB3 & XB4 & B1 & B2 & B3 & B4 & B5 & B6 & B7 & B8).
  destruct (input_okA dflt ofInt ltV stdsort itmax fM tM Hsort Hit WM1 WM2 WM3 WM4 WM5 WM6) as (XM & M & IM & XM1 & XM2 & XM3 & XM4 & M1 & M2 & M3 & M4 & M5 & M6 & M7 & M8).
  unfold allMain in Hy. destruct (getFileNameC path) as [fn|]; [|discriminate]. cbn [bind] in Hy.
  destruct Hy as (rA & rB & rM & K1 & K2 & K3 & Hm). apply IA in K1. apply IB in K2. apply IM in K3. subst rA rB rM. cbn [bind] in Hm. destruct Hm as (fl & _ & Hm).
  destruct (seqA_called _ _ _ _ 0 Hm) as (h1 & z1 & Hm1). { apply elem_of_seq. lia. }
  set (b := mkABench (str "HeapSpGEMM<rowAlg::MCA_v1> CSR") KHeap (fun t _ => allHeap itmax A B M t (mcaAlgG mul add MV1))).
  assert (Hb : b ∈ take k (allBenches dflt zero mul add itmax A B M XB)) by (apply (elem_of_list_lookup_2 _ 7); rewrite lookup_take by lia; reflexivity).
  destruct (seqA_called _ _ _ _ b Hm1 Hb) as (h2 & z2 & Hm2). unfold runA in Hm2.
  destruct (seqA_called _ _ _ _ t Hm2) as (h3 & z3 & r3 & Hm3 & E3). { left. }
  destruct r3 as [[h4 l4]|]; [|discriminate]. destruct (runOneA_called _ _ _ _ _ _ _ _ _ _ _ _ Hm3) as (nz & R & HR). cbn in HR.
  assert (Hin : (fst (epos e), snd (epos e), ofInt (snd e)) ∈ triples A).
  { rewrite <- A6. apply elem_of_list_fmap. exists e. split; [|exact He]. destruct e as [[i j] v]. reflexivity. }
  apply triplesV_elem in Hin as [Hi Hj].
  assert (Hc : snd (epos e) ∈ row_cols A (fst (epos e))) by (apply elem_of_list_fmap; eexists; split; [|exact Hj]; reflexivity).
  assert (Hlt : snd (epos e) < cols A) by (eapply row_cols_range; [exact A1|exact Hc]).
  assert (Hn : nnz A = length (means fA)) by (rewrite <- (triplesV_length A A1), fmap_length, <- (Permutation_length A6), fmap_length; reflexivity).
  set (s := <[3 := DriverModel.OMat M]> (<[0 := DriverModel.OMat A]> (<[1 := DriverModel.OMat B]> (<[2 := DriverModel.OMat M]> (∅ : gmap nat (DriverModel.obj V)))))).
  apply (C48_mca_keys_refuted V mul add MV1 A B M (2 * itmax + 1) 1 t 0 1 2 3 s (fst (epos e)) (snd (epos e)) (length (filter (fun u => fst (epos u) < snd (epos e)) (means fB)))); auto; try lia; try reflexivity.
  - apply (rows_above ofInt); [exact B1|exact B6|lia].
  - eexists. apply (HR 1 0 1 2 3 M s); auto; try lia; reflexivity.
Qed.
Print Assumptions C74_mca_refuted.
(** One entry at column 1 against a diagonal of two rows. *)
Definition exRowA : mmfile := mkMM Integer SymNo [] 1 2 [(1, 2, 5%Z, [])].
Definition exDiag : mmfile := mkMM Integer SymNo [] 2 2 [(1, 1, 7%Z, []); (2, 2, 9%Z, [])].
Definition exRowM : mmfile := mkMM Integer SymNo [] 1 2 [(1, 2, 1%Z, [])].
Lemma exRowA_wf : mm_wf exRowA.
Proof.
  unfold mm_wf. split; [apply Forall_nil; exact Logic.I|split; [|split; [|split; [|split]]]].
  - apply Forall_forall. intros l Hl. apply Nat.leb_le. revert l Hl. rewrite <- Forall_forall.
    cbn [exRowA mm_entries mm_field fmap list_fmap]. repeat (apply Forall_cons; split; [vm_compute; reflexivity|]). apply Forall_nil; exact Logic.I.
  - vm_compute. discriminate.
  - vm_compute. discriminate.
  - vm_compute. discriminate.
  - cbn [exRowA mm_entries mm_rows mm_cols]. repeat (apply Forall_cons; split; [split; [lia|split; [lia|split; [vm_compute; discriminate|left; reflexivity]]]|]). apply Forall_nil; exact Logic.I.
Qed.
Lemma exDiag_wf : mm_wf exDiag.
Proof.
  unfold mm_wf. split; [apply Forall_nil; exact Logic.I|split; [|split; [|split; [|split]]]].
  - apply Forall_forall. intros l Hl. apply Nat.leb_le. revert l Hl. rewrite <- Forall_forall.
    cbn [exDiag mm_entries mm_field fmap list_fmap]. repeat (apply Forall_cons; split; [vm_compute; reflexivity|]). apply Forall_nil; exact Logic.I.
  - vm_compute. discriminate.
  - vm_compute. discriminate.
  - vm_compute. discriminate.
  - cbn [exDiag mm_entries mm_rows mm_cols]. repeat (apply Forall_cons; split; [split; [lia|split; [lia|split; [vm_compute; discriminate|left; reflexivity]]]|]). apply Forall_nil; exact Logic.I.
Qed.
Lemma exRowM_wf : mm_wf exRowM.
Proof.
  unfold mm_wf. split; [apply Forall_nil; exact Logic.I|split; [|split; [|split; [|split]]]].
  - apply Forall_forall. intros l Hl. apply Nat.leb_le. revert l Hl. rewrite <- Forall_forall.
    cbn [exRowM mm_entries mm_field fmap list_fmap]. repeat (apply Forall_cons; split; [vm_compute; reflexivity|]). apply Forall_nil; exact Logic.I.
  - vm_compute. discriminate.
  - vm_compute. discriminate.
  - vm_compute. discriminate.
  - cbn [exRowM mm_entries mm_rows mm_cols]. repeat (apply Forall_cons; split; [split; [lia|split; [lia|split; [vm_compute; discriminate|left; reflexivity]]]|]). apply Forall_nil; exact Logic.I.
Qed.
Example C74_mca_example :
  good_file exRowA (render exRowA) /\ good_file exDiag (render exDiag) /\ good_file exRowM (render exRowM) /\ mm_cols exRowA = mm_rows exDiag /\
  (0, 1, 5%Z) ∈ means exRowA /\ length (means exRowA) <= length (filter (fun u => fst (epos u) < 1) (means exDiag)) /\ masked_count (means exRowA) (means exDiag) (means exRowM) 1.
Proof.
  assert (G : forall f, mm_wf f -> mm_symm f = SymNo -> values_integral f -> NoDup (epos <$> means f) -> good_file f (render f)).
  { intros f H1 H2 H3 H4. split; [exact H1|]. rewrite H2. split; [discriminate|]. split; [exact H3|]. split; [discriminate|]. split; [exact H4|]. left. exists []. rewrite app_nil_r. reflexivity. }
  split; [apply G; [exact exRowA_wf|reflexivity|repeat constructor|apply (bool_decide_unpack _); vm_compute; exact Logic.I]|].
  split; [apply G; [exact exDiag_wf|reflexivity|repeat constructor|apply (bool_decide_unpack _); vm_compute; exact Logic.I]|].
  split; [apply G; [exact exRowM_wf|reflexivity|repeat constructor|apply (bool_decide_unpack _); vm_compute; exact Logic.I]|].
  split; [reflexivity|]. split; [vm_compute; left|]. split; [vm_compute; lia|].
  exists [(0, 1)]. split; [apply NoDup_singleton|]. split; [|reflexivity]. intros x.
  assert (E1 : epos <$> means exRowM = [(0, 1)]) by (vm_compute; reflexivity). assert (E2 : step_pos <$> meeting (means exRowA) (means exDiag) = [(0, 1)]) by (vm_compute; reflexivity).
  rewrite E1, E2. tauto.
Qed.
