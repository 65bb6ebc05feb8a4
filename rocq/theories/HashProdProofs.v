(** The product of HashSpGEMM.cpp, with sorted rows, and one number of threads of its loop. *)
From Coq Require Import NArith ZArith Ascii String Sorted.
From stdpp Require Import numbers list_numbers gmap sorting.
From Verif Require Import BaseProofs WorkModel WorkProofs ConcProofs Assemble MatSpec MatStatements ConvProofs PropReport IoSpec IoModel MatModel PropMat PropHashHw HashHwModel BlockCalls
  ObjModel ObjSpec ObjProofs MainSpec MainCalls RunModel RunSpec RunProofs AllMainModel AllMainSpec AllMainLoops AllMainProofs AllMainCalls SampleModel SampleProofs
  SpaMainModel SpaMainSpec SpaMainProofs HashProdModel HashProdSpec.
From Verif Require Import Base Spec.
Local Open Scope nat_scope.

(** ** The order of the entries *)
Lemma sorted_app {A} (R : A -> A -> Prop) l1 l2 : StronglySorted R l1 -> StronglySorted R l2 -> (forall x y, x ∈ l1 -> y ∈ l2 -> R x y) -> StronglySorted R (l1 ++ l2).
Proof.
  intros H1 H2 H. induction H1 as [|x l1 _ IH Hx]; [exact H2|]. cbn [app]. constructor.
  - apply IH. intros a b Ha Hb. apply H; [right; exact Ha|exact Hb].
  - rewrite Forall_forall in *. intros y Hy. apply elem_of_app in Hy as [Hy|Hy]; [apply Hx, Hy|]. apply H; [left|exact Hy].
Qed.
Lemma triples_before {V} (R : csr V) : sorted_rows R -> StronglySorted before (fst <$> triples R).
Proof.
  intros HR. unfold triples. assert (G : forall n lo, lo + n <= rows R ->
    StronglySorted before (fst <$> mjoin ((fun i => (fun e => (i, fst e, snd e)) <$> row_entries R i) <$> seq lo n)) /\
    forall p, p ∈ fst <$> mjoin ((fun i => (fun e => (i, fst e, snd e)) <$> row_entries R i) <$> seq lo n) -> lo <= fst p).
  { induction n as [|n IH]; intros lo Hn; [split; [constructor|intros p Hp; inversion Hp]|]. cbn [seq]. rewrite fmap_cons, mjoin_cons, fmap_app.
    destruct (IH (Datatypes.S lo) ltac:(lia)) as [I1 I2]. assert (K : forall p, p ∈ fst <$> ((fun e : nat * V => (lo, fst e, snd e)) <$> row_entries R lo) -> fst p = lo).
    { intros p Hp. rewrite <- list_fmap_compose in Hp. apply elem_of_list_fmap in Hp as (e & -> & _). reflexivity. }
    split.
    - apply sorted_app; [|exact I1|].
      + rewrite <- list_fmap_compose. pose proof (HR lo ltac:(lia)) as Hs. unfold row_cols in Hs. clear -Hs. remember (row_entries R lo) as l eqn:E. clear E. induction l as [|e l IHl]; [constructor|].
        rewrite fmap_cons in *. inversion Hs as [|? ? S1 S2]; subst. constructor; [apply IHl, S1|]. rewrite Forall_forall. intros p Hp. apply elem_of_list_fmap in Hp as (e' & -> & He'). right. split; [reflexivity|]. apply (proj1 (Forall_forall _ _) S2). apply (elem_of_list_fmap_1 fst), He'.
      + intros x y Hx Hy. left. rewrite (K x Hx). specialize (I2 y Hy). lia.
    - intros p Hp. apply elem_of_app in Hp as [Hp|Hp]; [rewrite (K p Hp); lia|]. specialize (I2 p Hp). lia. }
  apply (G (rows R) 0). lia.
Qed.

Section Prod.
Context {V : Type} (dflt : V) (mul add : V -> V -> V) (ofInt : Z -> V) (stdsort : list (nat * V) -> list (nat * V)) (ltV : V -> V -> Prop) (itmax : nat).
Context (A B : csr V) (EA EB : list (nat * nat * Z)).
Context (HwA : wf A) (HwB : wf B) (HAB : cols A = rows B).
Context (PA : conv ofInt <$> EA ≡ₚ triples A) (PB : conv ofInt <$> EB ≡ₚ triples B).
Context (Hr : 1 <= rows A) (HN : (N.of_nat (rows A + 1) < 2 ^ 17)%N) (Hcb : (N.of_nat (cols B) <= 2 ^ 30)%N).
Context (Hit : (intmax <= Z.of_nat itmax)%Z) (Hsort : sort_contract ltV stdsort).
Context (t c : nat) (Ht : 1 <= t) (HW : length (meeting EA EB) + t <= itmax + 1) (Hc : product_count EA EB c).
Local Notation PANS := (answerP mul add ofInt EA EB (rows A) (cols B)).

Lemma some_mask : exists M, compatible A B M.
Proof using HwA HwB HAB.
  clear -HwA HwB HAB. exists (assemble (fun _ => []) (rows A) (cols B)). constructor; auto. apply assemble_wf. intros i k v _ Hin. inversion Hin.
Qed.
Lemma call_sorted : (exists R, sortedHash dflt mul add stdsort itmax A B t R) /\ forall R, sortedHash dflt mul add stdsort itmax A B t R -> PANS R /\ sorted_rows R.
Proof.
  destruct some_mask as [M Hco]. apply ends_unique; [exists 0; exact I|]. intros nts _. unfold intmax in Hit.
  destruct (C46_hash_partial V dflt mul add 32 (itmax + 1) stdsort true (2 * itmax + 1) nts t A B HwA HwB HAB ltac:(lia) Ht HN (contract_key _ _ Hsort)) as (C & HC & Hu & (HwC & E1 & E2 & Hrow) & _).
  { rewrite (prods_sum ofInt A B M EA EB Hco PA PB). exact HW. }
  { lia. }
  { intros i Hi. lia. }
  exists C. split; [exact HC|]. split; [exact Hu|]. split; [|intros i Hi; apply Hrow; [lia|reflexivity]].
  split; [exact HwC|]. split; [exact E1|]. split; [exact E2|]. split; [intros i Hi; apply Hrow, Hi|]. split.
  - intros i j. split.
    + intros [Hi Hj]. apply (PR_pos mul ofInt A B M EA EB Hco PA PB); [exact Hi|]. unfold row_cols in Hj. apply elem_of_list_fmap in Hj as ([j' v] & -> & Hj). apply (Hrow i Hi) in Hj. apply (sum1_some (fun s x => add x s)). eauto.
    + intros H. pose proof (row_of_pos ofInt A EA EB PA i j H) as Hi. split; [exact Hi|]. apply (PR_pos mul ofInt A B M EA EB Hco PA PB) in H; [|exact Hi]. apply (sum1_some (fun s x => add x s)) in H as [v Hv].
      apply elem_of_list_fmap. exists (j, v). split; [reflexivity|]. apply (Hrow i Hi). exact Hv.
  - intros i j v Hi Hv. apply (Hrow i Hi) in Hv. eapply sums_perm; [apply sum1_sums_l, Hv|]. apply products_file; [exact HwA|exact HAB|exact PA|exact PB|exact Hi].
Qed.
Lemma first_of R n : PANS R -> sorted_rows R -> first_values mul add ofInt EA EB (take n (values R)).
Proof using Type.
  clear. intros (HwR & E & _ & Hn & Hk & Hv) HS. exists (take n (fst <$> triples R)), (drop n (fst <$> triples R)). rewrite take_drop. split; [apply triples_before, HS|]. split.
  - intros [i j]. rewrite triplesV_pos, E. apply Hk.
  - apply Forall2_take. rewrite (values_triples R HwR). assert (G : forall l : list (nat * nat * V), (forall e, e ∈ l -> e ∈ triples R) ->
      Forall2 (fun p v => sums add (products_at mul ofInt EA EB (fst p) (snd p)) v) (fst <$> l) (snd <$> l)); [|apply G; auto].
    induction l as [|[[i j] v] l IH]; intros Hl; [constructor|]. rewrite !fmap_cons. constructor; [|apply IH; intros; apply Hl; right; assumption].
    specialize (Hl (i, j, v) ltac:(left)). apply triplesV_elem in Hl as [Hi Hj]. rewrite E in Hi. cbn [fst snd]. apply Hv; assumption.
Qed.
Lemma sorted_shape R : sortedHash dflt mul add stdsort itmax A B t R -> RunSpec.shape R /\ rows R <> 0 /\ nnz R = c /\ PANS R /\ sorted_rows R.
Proof.
  intros HR. destruct (proj2 call_sorted R HR) as [HP HS]. pose proof HP as (HwR & E & _).
  split; [split; [apply (wf_len R HwR)|split; [apply (wf_colids R HwR)|apply (wf_values R HwR)]]|]. split; [lia|]. split; [|split; [exact HP|exact HS]]. eapply product_unique; [eapply PANS_count, HP|exact Hc].
Qed.

Section Run.
Context (pick : gmap nat (ablock V) -> nat) (null0 : bool).
Let b := mkABench (str "HashSpGEMM") KOver (fun t _ => sortedHash dflt mul add stdsort itmax A B t).

Lemma prodOne_ok iters h : (forall h, h !! pick h = None) -> 1 <= iters -> 10 <= c -> (exists r, prodOne dflt mul add pick null0 stdsort itmax iters A B t h r) /\
  forall r, prodOne dflt mul add pick null0 stdsort itmax iters A B t h r -> exists first, r = Ok (h, [mkPLine first c t]) /\ length first = 10 /\ first_values mul add ofInt EA EB first.
Proof.
  intros Hp Hiters H10. destruct iters as [|m]; [lia|]. assert (E0 : (c =? 0) = false) by (apply Nat.eqb_neq; lia).
  assert (S0 : freshAt h 0 (defaultCtor, h)).
  { split; [|split; reflexivity]. split; [apply (inv_start pick Hp)|apply (default_holds pick Hp)]. }
  assert (Psh : forall R, a_prod b t 0 R -> RunSpec.shape R /\ rows R <> 0 /\ (nnz R =? 0) = (c =? 0)).
  { intros R HR. destruct (sorted_shape R HR) as (K1 & K2 & <- & _). auto. }
  destruct (smp_call dflt pick null0 Hp b t (c =? 0) ltac:(discriminate) (proj1 call_sorted) Psh h 0 (defaultCtor, h) S0) as [F1 F2]. rewrite E0 in F2. cbn [lost_result andb lost_local a_kind b] in F2.
  assert (Step1 : forall r1, call dflt pick null0 (a_kind b) (a_prod b) t (defaultCtor, h) r1 ->
    exists first s, (s <- r1 ;; first <- firstTen (fst s) (snd s) ;; s <- makeEmpty (fst s) (snd s) ;; Ok (first, s)) = Ok (first, s) /\ freshAt h 0 s /\ length first = 10 /\ first_values mul add ofInt EA EB first).
  { intros r1 Hr1. destruct (F2 r1 Hr1) as (s & R & -> & HS & HR). destruct (sorted_shape R HR) as ((L1 & L2 & L3) & K2 & EN & HP & HSR). cbn [bind].
    destruct (h_ent _ _ _ (proj2 HS) ltac:(lia)) as (b1 & b2 & _ & Eva & _ & Hb2).
    assert (EV : blkV (o_va (fst s)) (snd s) = Ok (b2, values R)) by (rewrite Eva; cbn [blkV]; rewrite Hb2; reflexivity).
    rewrite (firstTen_ok _ _ _ _ EV). destruct (Nat.ltb_spec (length (values R)) 10); [lia|]. cbn [bind].
    destruct (empty_step pick Hp h _ s R HS) as (s2 & -> & HS2 & O2 & N2). cbn [bind]. eexists _, _. split; [reflexivity|]. split; [split; auto|]. split; [rewrite take_length; lia|].
    eapply first_of; [exact HP|exact HSR]. }
  assert (Step2 : forall s, freshAt h 0 s -> (exists r, smpIters dflt pick null0 b (Datatypes.S m) t (seq 0 (Datatypes.S m)) s r) /\
    forall r, smpIters dflt pick null0 b (Datatypes.S m) t (seq 0 (Datatypes.S m)) s r -> exists C h2 R, r = Ok (C, h2) /\ St h 0 (C, h2) R /\ nnz R = c).
  { intros s HS. destruct (smp_iters dflt pick null0 Hp b t (c =? 0) ltac:(discriminate) (proj1 call_sorted) Psh (Datatypes.S m) h m 0 0 s eq_refl HS) as [I1 I2].
    split; [exact I1|]. intros r Hr'. destruct (I2 r Hr') as ([C h2] & R & -> & HS2 & HR). destruct (sorted_shape R HR) as (_ & _ & EN & _). exists C, h2, R. split; [reflexivity|].
    rewrite E0 in HS2. cbn [lost_result andb lost_local a_kind b] in HS2. replace (0 + Datatypes.S m * (0 + 0)) with 0 in HS2 by lia. split; [exact HS2|exact EN]. }
  split.
  - destruct F1 as [r1 Hr1]. destruct (Step1 r1 Hr1) as (first & s & E1 & HS & _). destruct (Step2 s HS) as [[r2 Hr2] _].
    eexists. exists r1. split; [exact Hr1|]. rewrite E1. exists r2. split; [exact Hr2|reflexivity].
  - intros r (r1 & Hr1 & Hr'). destruct (Step1 r1 Hr1) as (first & s & E1 & HS & HL & HV). rewrite E1 in Hr'. destruct Hr' as (r2 & Hr2 & ->). destruct (proj2 (Step2 s HS) r2 Hr2) as (C & h2 & R & -> & HS2 & EN).
    cbn [bind]. pose proof (h_nnz _ _ _ (proj2 HS2)) as E2. cbn [fst] in E2.
    destruct (empty_step pick Hp h _ _ R HS2) as ([C3 h3] & E3 & HS3 & O3 & _). cbn [fst snd] in E3. rewrite E3. cbn [bind].
    destruct (empty_step pick Hp h _ _ _ HS3) as ([C4 h4] & E4 & HS4 & O4 & _). cbn [fst snd] in E4. rewrite E4. cbn [bind].
    exists first. split; [|auto]. rewrite E2, EN. f_equal. f_equal. destruct HS4 as [I4 _]. cbn [fst snd] in I4, O4.
    apply nothing_lost; [apply I4|]. rewrite (i_size _ _ _ _ I4), O4. simpl. lia.
Qed.
Lemma prodOne_few iters h r : c < 10 -> ~ prodOne dflt mul add pick null0 stdsort itmax iters A B t h (Ok r).
Proof.
  intros H10 (r1 & (R & HR & ->) & Hr'). cbn [a_prod] in HR. destruct (sorted_shape R HR) as ((L1 & L2 & L3) & K2 & EN & HP). cbn [a_kind publish publishOver fst snd] in Hr'.
  unfold publishOver, setArrays in Hr'. destruct (allocI pick null0 (rowptr R) h) as [p1 h1]. destruct (allocI pick null0 (colids R) h1) as [p2 h2]. destruct (allocV pick null0 (values R) h2) as [p3 h3] eqn:E3. cbn [bind fst snd] in Hr'.
  assert (E : exists e, firstTen (mkObj (rows R) (cols R) (nnz R) p1 p2 p3 true) h3 = Err e).
  { unfold allocV in E3. destruct (null0 && (length (values R) =? 0)); injection E3 as <- <-.
    - exists OutOfBounds. reflexivity.
    - exists OutOfBounds. rewrite (firstTen_ok _ _ (pick h2) (values R)); [destruct (Nat.ltb_spec (length (values R)) 10); [reflexivity|lia]|]. cbn [o_va blkV]. rewrite lookup_insert. reflexivity. }
  destruct E as [e E]. rewrite E in Hr'. discriminate.
Qed.
End Run.
End Prod.
