(** The unmasked product of MaskedSPASpGEMM.cpp and one number of threads of its first loop. *)
From Coq Require Import NArith ZArith Ascii String.
From stdpp Require Import numbers list_numbers gmap sorting.
From Verif Require Import BaseProofs WorkModel WorkProofs ConcProofs Assemble MatSpec MatStatements ConvProofs PropReport IoSpec IoModel MatModel PropMat PropIsect PropHashHw HashHwModel IsectModel BlockCalls
  ObjModel ObjSpec ObjProofs MainSpec MainCalls RunModel RunSpec RunProofs AllMainModel AllMainSpec AllMainLoops AllMainProofs AllMainCalls SampleModel SampleProofs SpaMainModel SpaMainSpec.
From Verif Require Import Base Spec.
Local Open Scope nat_scope.

Lemma product_exists EA EB : exists c, product_count EA EB c.
Proof.
  exists (length (remove_dups (step_pos <$> meeting EA EB))). eexists. split; [apply NoDup_remove_dups|]. split; [|reflexivity]. intros x. apply elem_of_remove_dups.
Qed.
Lemma product_unique EA EB c c' : product_count EA EB c -> product_count EA EB c' -> c = c'.
Proof.
  intros (P & N1 & E1 & <-) (P' & N2 & E2 & <-). apply Permutation_length, NoDup_Permutation; [exact N1|exact N2|]. intros x. rewrite E1, E2. reflexivity.
Qed.
Lemma values_triples {V} (R : csr V) : wf R -> values R = snd <$> triples R.
Proof.
  intros Hw. pose proof (wf_assemble R Hw) as E. rewrite E at 1. unfold assemble. cbn [values]. unfold rowsOf, triples. rewrite Nat.sub_0_r.
  induction (seq 0 (rows R)) as [|i l IH]; [reflexivity|]. rewrite !fmap_cons, !mjoin_cons, !fmap_app, IH. f_equal. rewrite <- list_fmap_compose. reflexivity.
Qed.

Section Hash.
Context {V : Type} (dflt : V) (mul add : V -> V -> V) (ofInt : Z -> V) (stdsort : list (nat * V) -> list (nat * V)) (ltV : V -> V -> Prop) (itmax : nat).
Context (A B M : csr V) (EA EB EM : list (nat * nat * Z)).
Context (Hco : compatible A B M) (HsM : sorted_rows M).
Context (PA : conv ofInt <$> EA ≡ₚ triples A) (PB : conv ofInt <$> EB ≡ₚ triples B) (PM : conv ofInt <$> EM ≡ₚ triples M).
Context (Hr : 1 <= rows A) (HN : (N.of_nat (rows A + 1) < 2 ^ 17)%N) (Hcb : (N.of_nat (cols B) <= 2 ^ 30)%N).
Context (Hit : (intmax <= Z.of_nat itmax)%Z) (Hsort : sort_contract ltV stdsort).
Local Notation PANS := (answerP mul add ofInt EA EB (rows A) (cols B)).
Local Notation PR i j := (products mul (row_entries A i) (row_entries B) j).

Lemma PR_pos i j : i < rows A -> PR i j <> [] <-> (i, j) ∈ step_pos <$> meeting EA EB.
Proof.
  intros Hi. rewrite <- (products_some mul ofInt EA EB i j). pose proof (products_file mul ofInt A B EA EB (co_A _ _ _ Hco) (co_inner _ _ _ Hco) PA PB i j Hi) as P.
  split; intros H E; apply H; rewrite E in P; [symmetry in P|]; apply Permutation_nil_r in P || apply Permutation_nil in P; exact P.
Qed.
Lemma row_of_pos i j : (i, j) ∈ step_pos <$> meeting EA EB -> i < rows A.
Proof.
  intros H. apply elem_of_list_fmap in H as ([e e'] & E & H). unfold meeting in H. apply elem_of_list_filter in H as [_ H]. apply elem_of_list_In, in_prod_iff in H as [H _]. apply elem_of_list_In in H.
  unfold step_pos in E. injection E as -> _. assert (Hin : conv ofInt e ∈ triples A) by (rewrite <- PA; apply elem_of_list_fmap; eauto). destruct e as [[i k] v]. apply triplesV_elem in Hin as [Hi _]. exact Hi.
Qed.
Lemma call_smpHash t : 1 <= t -> length (meeting EA EB) + t <= itmax + 1 ->
  (exists R, smpHash dflt mul add stdsort itmax A B t R) /\ forall R, smpHash dflt mul add stdsort itmax A B t R -> PANS R.
Proof.
  intros Ht HW. apply ends_unique; [exists 0; exact I|]. intros nts _. unfold intmax in Hit.
  destruct (C46_hash_partial V dflt mul add 32 (itmax + 1) stdsort false (2 * itmax + 1) nts t A B (co_A _ _ _ Hco) (co_B _ _ _ Hco) (co_inner _ _ _ Hco) ltac:(lia) Ht HN (contract_key _ _ Hsort)) as (C & HC & Hu & (HwC & E1 & E2 & Hrow) & _).
  { rewrite (prods_sum ofInt A B M EA EB Hco PA PB). exact HW. }
  { lia. }
  { intros i Hi. lia. }
  exists C. split; [exact HC|]. split; [exact Hu|]. split; [exact HwC|]. split; [exact E1|]. split; [exact E2|]. split; [intros i Hi; apply Hrow, Hi|]. split.
  - intros i j. split.
    + intros [Hi Hj]. apply PR_pos; [exact Hi|]. unfold row_cols in Hj. apply elem_of_list_fmap in Hj as ([j' v] & -> & Hj). apply (Hrow i Hi) in Hj. apply (sum1_some (fun s x => add x s)). eauto.
    + intros H. pose proof (row_of_pos i j H) as Hi. split; [exact Hi|]. apply PR_pos in H; [|exact Hi]. apply (sum1_some (fun s x => add x s)) in H as [v Hv].
      apply elem_of_list_fmap. exists (j, v). split; [reflexivity|]. apply (Hrow i Hi). exact Hv.
  - intros i j v Hi Hv. apply (Hrow i Hi) in Hv. eapply sums_perm; [apply sum1_sums_l, Hv|]. apply products_file; [apply Hco|apply Hco|exact PA|exact PB|exact Hi].
Qed.
Lemma PANS_count R : PANS R -> product_count EA EB (nnz R).
Proof using Type.
  clear. intros (HwR & E & _ & Hn & Hk & _). exists (fst <$> triples R). split; [apply rowsV_NoDup; intros i Hi; apply Hn; lia|]. split; [|apply triplesV_length, HwR].
  intros [i j]. rewrite triplesV_pos, E. apply Hk.
Qed.
Lemma PANS_values R n : PANS R -> some_values mul add ofInt EA EB (take n (values R)).
Proof using Type.
  clear. intros (HwR & E & _ & Hn & Hk & Hv). exists (take n (fst <$> triples R)). split.
  - assert (G : NoDup (fst <$> triples R)) by (apply rowsV_NoDup; intros i Hi; apply Hn; lia). rewrite <- (take_drop n (fst <$> triples R)) in G. apply NoDup_app in G as [G _]. exact G.
  - apply Forall2_take. rewrite (values_triples R HwR). assert (G : forall l : list (nat * nat * V), (forall e, e ∈ l -> e ∈ triples R) ->
      Forall2 (fun p v => p ∈ step_pos <$> meeting EA EB /\ sums add (products_at mul ofInt EA EB (fst p) (snd p)) v) (fst <$> l) (snd <$> l)); [|apply G; auto].
    induction l as [|[[i j] v] l IH]; intros Hl; [constructor|]. rewrite !fmap_cons. constructor; [|apply IH; intros; apply Hl; right; assumption].
    specialize (Hl (i, j, v) ltac:(left)). apply triplesV_elem in Hl as [Hi Hj]. rewrite E in Hi. cbn [fst snd]. split; [|apply Hv; assumption]. apply Hk. split; [exact Hi|]. apply elem_of_list_fmap. exists (j, v). auto.
Qed.
(** sortIds and Intersect. *)
Lemma sort_intersect R : PANS R -> exists X' T, sortIds_ends stdsort R X' /\ (forall X'', sortIds_ends stdsort R X'' -> X'' = X') /\
  (forall r, smpIntersect dflt add itmax M X' r <-> r = Some T) /\ RunSpec.shape T /\ rows T = rows A /\ masked_count EA EB EM (nnz T).
Proof.
  intros (HwR & E1 & E2 & Hn & Hk & Hv). destruct (C33_sort_rows V ltV stdsort Hsort R HwR) as (X & S1 & S2 & _ & S3 & _ & S5 & S6 & S7).
  assert (SX : sorted_rows X) by (intros i Hi; rewrite S5 in Hi; destruct (S7 i Hi) as (_ & _ & _ & K); apply K, Hn; lia).
  assert (G : forall nts, exists T, intersect_ends dflt add (2 * itmax + 1) nts M X (Some T) /\ (forall r, intersect_ends dflt add (2 * itmax + 1) nts M X r -> r = Some T) /\
    wf T /\ rows T = rows M /\ cols T = cols M /\ sorted_rows T /\ forall i c v, i < rows M -> ((c, v) ∈ row_entries T i <-> exists a b, (c, a) ∈ row_entries M i /\ (c, b) ∈ row_entries X i /\ v = add a b)).
  { intros nts. apply C35_intersect_partial; [apply Hco|exact S3|exact HsM|exact SX|rewrite S5, E1; apply Hco|rewrite S6, E2; apply Hco|]. rewrite (co_rows _ _ _ Hco). exact HN. }
  destruct (G 0) as (T & T1 & T2 & T3 & T4 & T5 & T6 & T7).
  assert (Hall : forall nts r, intersect_ends dflt add (2 * itmax + 1) nts M X r -> r = Some T).
  { intros nts r Hr'. destruct (G nts) as (T' & U1 & U2 & U3 & U4 & U5 & U6 & U7). rewrite (U2 r Hr'). f_equal. 
    rewrite (wf_assemble T' U3), (wf_assemble T T3), U4, U5, T4, T5. apply assemble_ext. intros i Hi.
    apply PropHeapCsc.sorted_pairs_eq; [apply U6; lia|apply T6; lia|]. intros [c v]. rewrite U7, T7 by exact Hi. reflexivity. }
  exists X, T. split; [exact S1|]. split; [exact S2|]. split.
  { intros r. split; [intros [_ [nts Hr']]; eapply Hall, Hr'|]. intros ->. split; [intros nts; destruct (G nts) as (T' & U1 & _); eauto|]. exists 0. exact T1. }
  split; [split; [apply (wf_len T T3)|split; [apply (wf_colids T T3)|apply (wf_values T T3)]]|]. split; [rewrite T4; apply Hco|].
  exists (fst <$> triples T). split; [apply rowsV_NoDup; intros i Hi; apply sorted_NoDup, T6, Hi|]. split; [|apply triplesV_length, T3].
  intros [i j]. rewrite triplesV_pos, T4. rewrite <- (mask_file ofInt A B M EM Hco PM i j), <- Hk, <- (co_rows _ _ _ Hco).
  assert (HX : i < rows M -> (exists v, (j, v) ∈ row_entries X i) <-> j ∈ row_cols R i).
  { intros Hi. rewrite (co_rows _ _ _ Hco) in Hi. destruct (S7 i ltac:(lia)) as (K & _). unfold row_cols. rewrite elem_of_list_fmap. split.
    - intros [v Hj]. rewrite K in Hj. exists (j, v). auto.
    - intros ([j' v] & -> & Hj). exists v. rewrite K. exact Hj. }
  split.
  - intros [Hi Hj]. unfold row_cols in Hj. apply elem_of_list_fmap in Hj as ([j' v] & -> & Hj). apply T7 in Hj as (a & b & Ha & Hb & _); [|exact Hi]. cbn [fst].
    split; [split; [exact Hi|apply elem_of_list_fmap; exists (j', a); auto]|]. split; [exact Hi|]. apply HX; eauto.
  - intros [[Hi Hj] [_ Hj2]]. split; [exact Hi|]. apply HX in Hj2 as [b Hb]; [|exact Hi]. unfold row_cols in Hj. apply elem_of_list_fmap in Hj as ([j' a] & -> & Ha). cbn [fst] in *.
    apply elem_of_list_fmap. exists (j', add a b). split; [reflexivity|]. apply T7; [exact Hi|]. eauto 6.
Qed.
End Hash.

(** ** The ten values *)
Lemma firstTen_ok {V} (C : obj) (h : gmap nat (ablock V)) b va : blkV (o_va C) h = Ok (b, va) -> firstTen C h = if length va <? 10 then Err OutOfBounds else Ok (take 10 va).
Proof.
  intros E. unfold firstTen. rewrite E. clear E. do 10 (destruct va as [|? va]; [reflexivity|]). reflexivity.
Qed.

Section One.
Context {V : Type} (dflt : V) (mul add : V -> V -> V) (ofInt : Z -> V) (pick : gmap nat (ablock V) -> nat) (null0 : bool) (stdsort : list (nat * V) -> list (nat * V)) (ltV : V -> V -> Prop) (itmax : nat).
Hypothesis pick_fresh : forall h, h !! pick h = None.
Context (A B M : csr V) (EA EB EM : list (nat * nat * Z)).
Context (Hco : compatible A B M) (HsM : sorted_rows M).
Context (PA : conv ofInt <$> EA ≡ₚ triples A) (PB : conv ofInt <$> EB ≡ₚ triples B) (PM : conv ofInt <$> EM ≡ₚ triples M).
Context (Hr : 1 <= rows A) (HN : (N.of_nat (rows A + 1) < 2 ^ 17)%N) (Hcb : (N.of_nat (cols B) <= 2 ^ 30)%N).
Context (Hit : (intmax <= Z.of_nat itmax)%Z) (Hsort : sort_contract ltV stdsort).
Context (t c cm : nat) (Ht : 1 <= t) (HW : length (meeting EA EB) + t <= itmax + 1) (Hc : product_count EA EB c) (Hcm : masked_count EA EB EM cm).
Let b := mkABench (str "HashSpGEMM") KOver (fun t _ => smpHash dflt mul add stdsort itmax A B t).

Lemma hash_shape R : smpHash dflt mul add stdsort itmax A B t R -> RunSpec.shape R /\ rows R <> 0 /\ nnz R = c /\ answerP mul add ofInt EA EB (rows A) (cols B) R.
Proof.
  clear pick_fresh Hcm. intros HR. pose proof (proj2 (call_smpHash dflt mul add ofInt stdsort ltV itmax A B M EA EB Hco PA PB Hr HN Hcb Hit Hsort t Ht HW) R HR) as HP. pose proof HP as (HwR & E & _).
  split; [split; [apply (wf_len R HwR)|split; [apply (wf_colids R HwR)|apply (wf_values R HwR)]]|]. split; [lia|]. split; [|exact HP]. eapply product_unique; [eapply PANS_count, HP|exact Hc].
Qed.
Lemma hash_ex : exists R, smpHash dflt mul add stdsort itmax A B t R.
Proof. apply (call_smpHash dflt mul add ofInt stdsort ltV itmax A B M EA EB Hco PA PB Hr HN Hcb Hit Hsort t Ht HW). Qed.

(** The first call. *)
Lemma first_call h : (exists r, call dflt pick null0 KOver (fun t _ => smpHash dflt mul add stdsort itmax A B t) t (defaultCtor, h) r) /\
  forall r, call dflt pick null0 KOver (fun t _ => smpHash dflt mul add stdsort itmax A B t) t (defaultCtor, h) r -> exists s R, r = Ok s /\ St h (lost_result null0 (c =? 0)) s R /\ smpHash dflt mul add stdsort itmax A B t R.
Proof.
  assert (S0 : freshAt h 0 (defaultCtor, h)).
  { split; [|split; reflexivity]. split; [apply (inv_start pick pick_fresh)|apply (default_holds pick pick_fresh)]. }
  destruct (smp_call dflt pick null0 pick_fresh b t (c =? 0) ltac:(discriminate) hash_ex) with (h := h) (n := 0) (s := (defaultCtor, h)) as [H1 H2].
  { intros R HR. destruct (hash_shape R HR) as (K1 & K2 & <- & _). auto. }
  { exact S0. }
  split; [exact H1|]. intros r Hr'. destruct (H2 r Hr') as (s & R & -> & HS & HR). exists s, R. split; [reflexivity|]. split; [|exact HR]. cbn [lost_local a_kind b] in HS. rewrite Nat.add_0_r in HS. exact HS.
Qed.

Lemma hashOne_ok iters h : 1 <= iters -> 10 <= c -> (exists r, hashOne dflt mul add pick null0 stdsort itmax iters A B M t h r) /\
  forall r, hashOne dflt mul add pick null0 stdsort itmax iters A B M t h r -> exists h' first, r = Ok (h', [mkHLine first c t cm]) /\ h ⊆ h' /\ length first = 10 /\ some_values mul add ofInt EA EB first /\
    size h' = size h + (if (cm =? 0) && negb null0 then 2 else 0).
Proof.
  intros Hiters H10. destruct iters as [|m]; [lia|]. destruct (first_call h) as [F1 F2].
  assert (E0 : (c =? 0) = false) by (apply Nat.eqb_neq; lia). rewrite E0 in F2. cbn [lost_result andb] in F2.
  assert (Step1 : forall r1, call dflt pick null0 KOver (fun t _ => smpHash dflt mul add stdsort itmax A B t) t (defaultCtor, h) r1 ->
    exists first s, (s <- r1 ;; first <- firstTen (fst s) (snd s) ;; s <- makeEmpty (fst s) (snd s) ;; Ok (first, s)) = Ok (first, s) /\ freshAt h 0 s /\ length first = 10 /\ some_values mul add ofInt EA EB first).
  { intros r1 Hr1. destruct (F2 r1 Hr1) as (s & R & -> & HS & HR). destruct (hash_shape R HR) as ((L1 & L2 & L3) & K2 & EN & HP). cbn [bind].
    destruct (h_ent _ _ _ (proj2 HS) ltac:(lia)) as (b1 & b2 & _ & Eva & _ & Hb2). 
    assert (EV : blkV (o_va (fst s)) (snd s) = Ok (b2, values R)) by (rewrite Eva; cbn [blkV]; rewrite Hb2; reflexivity).
    rewrite (firstTen_ok _ _ _ _ EV). destruct (Nat.ltb_spec (length (values R)) 10); [lia|]. cbn [bind].
    destruct (empty_step pick pick_fresh h _ s R HS) as (s2 & -> & HS2 & O2 & N2). cbn [bind]. eexists _, _. split; [reflexivity|]. split; [split; auto|]. split; [rewrite take_length; lia|].
    eapply PANS_values, HP. }
  assert (Step2 : forall s, freshAt h 0 s -> (exists r, smpIters dflt pick null0 b (Datatypes.S m) t (seq 0 (Datatypes.S m)) s r) /\
    forall r, smpIters dflt pick null0 b (Datatypes.S m) t (seq 0 (Datatypes.S m)) s r -> exists C h2 R, r = Ok (C, h2) /\ St h 0 (C, h2) R /\ matrixOf C h2 = Ok R /\ answerP mul add ofInt EA EB (rows A) (cols B) R /\ nnz R = c).
  { intros s HS. destruct (smp_iters dflt pick null0 pick_fresh b t (c =? 0) ltac:(discriminate) hash_ex) with (iters := Datatypes.S m) (h := h) (m := m) (i := 0) (n := 0) (s := s) as [I1 I2].
    { intros R HR. destruct (hash_shape R HR) as (K1 & K2 & <- & _). auto. }
    { reflexivity. } { exact HS. }
    split; [exact I1|]. intros r Hr'. destruct (I2 r Hr') as ([C h2] & R & -> & HS2 & HR). destruct (hash_shape R HR) as ((L1 & L2 & L3) & K2 & EN & HP). exists C, h2, R. split; [reflexivity|].
    rewrite E0 in HS2. cbn [lost_result andb lost_local a_kind b] in HS2. replace (0 + Datatypes.S m * (0 + 0)) with 0 in HS2 by lia. split; [exact HS2|]. split; [|auto].
    destruct HS2 as [_ HH]. cbn [fst snd] in HH. destruct (h_ent _ _ _ HH ltac:(lia)) as (b1 & b2 & Eci & Eva & Hb1 & Hb2). destruct (h_ptr _ _ _ HH ltac:(lia)) as (b0 & Erp & Hb0).
    unfold matrixOf, readI, readV. rewrite (h_nnz _ _ _ HH), (h_rows _ _ _ HH), (h_cols _ _ _ HH), Erp, Eci, Eva. cbn [blkI blkV notNull bind]. rewrite Hb0, Hb1, Hb2. cbn [bind].
    destruct (Nat.eqb_spec (nnz R) 0); [lia|]. cbn [bind]. destruct R; reflexivity. }
  assert (Step3 : forall first C h2 R T, St h 0 (C, h2) R -> nnz R = c -> RunSpec.shape T -> rows T = rows A -> masked_count EA EB EM (nnz T) ->
    exists h', (let '(T, h) := setArrays pick null0 T true h2 in let l := mkHLine first (o_nnz C) t (o_nnz T) in
      (' (C, h) <- makeEmpty C h ;; ' (T, h) <- makeEmpty T h ;; ' (C, h) <- makeEmpty C h ;; Ok (h, [l]))) = Ok (h', [mkHLine (V := V) first c t cm]) /\ h ⊆ h' /\ size h' = size h + (if (cm =? 0) && negb null0 then 2 else 0)).
  { intros first C h2 R T [HI HH] EN HT ET HcT. cbn [fst snd] in HI, HH. pose proof (count_unique EA EB EM _ _ HcT Hcm) as EC.
    destruct (setArrays_inv pick null0 pick_fresh h 0 _ h2 T true HI HT) as (To & h3 & -> & I3 & HT3 & _ & Fr). pose proof (Fr C R HH) as HC3.
    assert (I3' : Inv h (0 + wasted null0 T) (owned C ++ owned To) h3) by (eapply inv_perm; [exact I3|apply Permutation_app_comm]).
    destruct (makeEmpty_inv pick pick_fresh _ _ _ _ C R I3' HC3) as (C4 & h4 & E4 & I4 & HC4 & O4 & _ & _ & _ & Fr4). rewrite E4. cbn [bind].
    pose proof (Fr4 To T HT3 ltac:(auto)) as HT4. rewrite <- (app_nil_r (owned To)) in I4.
    destruct (makeEmpty_inv pick pick_fresh _ _ _ _ To T I4 HT4) as (T5 & h5 & E5 & I5 & _ & _ & _ & _ & _ & Fr5). rewrite E5. cbn [bind].
    assert (HC5 : holds h5 C4 (mkCsr 0 0 0 [] [] [])) by (apply Fr5; [exact HC4|rewrite O4; auto]). rewrite <- O4 in I5. rewrite <- (app_nil_r (owned C4)) in I5.
    destruct (makeEmpty_inv pick pick_fresh _ _ _ _ C4 _ I5 HC5) as (C6 & h6 & E6 & I6 & _). rewrite E6. cbn [bind].
    rewrite (h_nnz _ _ _ HH), (h_nnz _ _ _ HT3), EN, EC. exists h6. split; [reflexivity|]. split; [apply I6|]. rewrite (i_size _ _ _ _ I6). unfold wasted. rewrite EC.
    destruct (Nat.eqb_spec (rows T) 0); [lia|]. destruct (cm =? 0), null0; cbn [andb negb length]; lia. }
  split.
  - destruct F1 as [r1 Hr1]. destruct (Step1 r1 Hr1) as (first & s & E1 & HS & _). destruct (Step2 s HS) as [[r2 Hr2] S2]. destruct (S2 r2 Hr2) as (C & h2 & R & -> & HS2 & EM2 & HP & EN).
    destruct (sort_intersect dflt mul add ofInt stdsort ltV itmax A B M EA EB EM Hco HsM PM Hr HN Hcb Hsort R HP) as (X' & T & X1 & X2 & X3 & _).
    destruct (setArrays pick null0 T true h2) as [To h3] eqn:ES. eexists. exists r1. split; [exact Hr1|]. rewrite E1. exists (Ok (C, h2)). split; [exact Hr2|]. cbn [bind fst snd]. rewrite EM2. cbn [bind]. exists X', (Some T). split; [exact X1|]. split; [apply X3; reflexivity|].
    rewrite ES. reflexivity.
  - intros r (r1 & Hr1 & Hr'). destruct (Step1 r1 Hr1) as (first & s & E1 & HS & HL & HV). rewrite E1 in Hr'. destruct Hr' as (r2 & Hr2 & Hr'). destruct (proj2 (Step2 s HS) r2 Hr2) as (C & h2 & R & -> & HS2 & EM2 & HP & EN).
    cbn [bind fst snd] in Hr'. rewrite EM2 in Hr'. cbn [bind] in Hr'. destruct Hr' as (X & rT & HX & HrT & Hr').
    destruct (sort_intersect dflt mul add ofInt stdsort ltV itmax A B M EA EB EM Hco HsM PM Hr HN Hcb Hsort R HP) as (X' & T & X1 & X2 & X3 & X4 & X5 & X6). apply X2 in HX. subst X. apply X3 in HrT. subst rT.
    destruct (Step3 first C h2 R T HS2 EN X4 X5 X6) as (h' & E3 & Hsub & Hsz). exists h', first. split; [|auto]. destruct (setArrays pick null0 T true h2) as [To h3]. rewrite <- E3. exact Hr'.
Qed.
(** Fewer than ten entries. *)
Lemma hashOne_few iters h r : c < 10 -> ~ hashOne dflt mul add pick null0 stdsort itmax iters A B M t h (Ok r).
Proof.
  clear pick_fresh Hcm. intros H10 (r1 & (R & HR & ->) & Hr'). cbn [a_prod] in HR. destruct (hash_shape R HR) as ((L1 & L2 & L3) & K2 & EN & HP). cbn [a_kind publish publishOver fst snd] in Hr'.
  unfold publishOver, setArrays in Hr'. destruct (allocI pick null0 (rowptr R) h) as [p1 h1]. destruct (allocI pick null0 (colids R) h1) as [p2 h2]. destruct (allocV pick null0 (values R) h2) as [p3 h3] eqn:E3. cbn [bind fst snd] in Hr'.
  assert (E : exists e, firstTen (mkObj (rows R) (cols R) (nnz R) p1 p2 p3 true) h3 = Err e).
  { unfold allocV in E3. destruct (null0 && (length (values R) =? 0)); injection E3 as <- <-.
    - exists OutOfBounds. reflexivity.
    - exists OutOfBounds. rewrite (firstTen_ok _ _ (pick h2) (values R)); [destruct (Nat.ltb_spec (length (values R)) 10); [reflexivity|lia]|]. cbn [o_va blkV]. rewrite lookup_insert. reflexivity. }
  destruct E as [e E]. rewrite E in Hr'. discriminate.
Qed.
End One.
