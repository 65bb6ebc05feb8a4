(** Proofs about SPA.h and MaskedSPASpGEMM. *)
From stdpp Require Import numbers.
From Verif Require Import SpaModel KernelBase BaseProofs ComplProofs ConcProofs ParProofs WorkProofs Assemble IsectProofs TwoPassProofs BinProofs.
From Verif Require Import Base Spec.

(** Columns of the row in the order of the output: allowed by the mask, in the order of the first product. *)
Definition touched_allowed (mask touched : list nat) : list nat := filter (fun j => j ∈ mask) (first_touch touched).

Lemma touched_allowed_snoc mask ts c : touched_allowed mask (ts ++ [c]) =
  if decide (c ∈ mask /\ c ∉ ts) then touched_allowed mask ts ++ [c] else touched_allowed mask ts.
Proof.
  unfold touched_allowed. rewrite first_touch_snoc. destruct (decide (c ∈ ts)) as [H|H].
  - rewrite decide_False by tauto. reflexivity.
  - rewrite filter_app, filter_cons, filter_nil. destruct (decide (c ∈ mask)) as [Hm|Hm].
    + rewrite decide_True by tauto. reflexivity.
    + rewrite decide_False by tauto. apply app_nil_r.
Qed.
Lemma elem_touched_allowed mask ts c : c ∈ touched_allowed mask ts <-> c ∈ mask /\ c ∈ ts.
Proof. unfold touched_allowed. rewrite elem_of_list_filter, elem_of_first_touch. reflexivity. Qed.

Section Spa.
Context {V : Type} (dflt : V) (mul add : V -> V -> V).
Notation add' := (fun s x => add x s).
Notation pcols := (fmap (fun p : nat * V * V => fst (fst p))).

(** Flags while [mask] is allowed and [ts] has been touched. *)
Definition flagsOk (n : nat) (mask ts : list nat) (fl : list nat) : Prop :=
  length fl = n /\ forall j, j < n -> fl !! j = Some (if decide (j ∈ mask) then if decide (j ∈ ts) then 2 else 1 else 0).

Lemma flagsOk_new n : flagsOk n [] [] (replicate n 0).
Proof.
  split; [apply replicate_length|]. intros j Hj. rewrite decide_False by (intros H; inversion H). apply lookup_replicate_2, Hj.
Qed.
Lemma flagsOk_clean n ts fl : flagsOk n [] ts fl -> flagsOk n [] [] fl.
Proof.
  intros [Hl H]. split; [exact Hl|]. intros j Hj. rewrite (H j Hj). rewrite !decide_False by (intros H'; inversion H'). reflexivity.
Qed.
Lemma flagsOk_allow n mask fl c : flagsOk n mask [] fl -> c < n -> exists fl', set_ fl c 1 = Ok fl' /\ flagsOk n (mask ++ [c]) [] fl'.
Proof.
  intros [Hl H] Hc. eexists. split; [apply set_Ok; lia|]. split; [rewrite insert_length; exact Hl|]. intros j Hj.
  rewrite (decide_False (P := j ∈ [])) by (intros H'; inversion H'). destruct (decide (j = c)) as [->|Hne].
  - rewrite list_lookup_insert by lia. rewrite decide_True; [reflexivity|]. apply elem_of_app. right. left.
  - rewrite list_lookup_insert_ne by congruence. rewrite (H j Hj). rewrite (decide_False (P := j ∈ [])) by (intros H'; inversion H').
    f_equal. apply decide_ext. rewrite elem_of_app, elem_of_list_singleton. tauto.
Qed.
Lemma flagsOk_touch n mask ts fl c : flagsOk n mask ts fl -> c < n -> c ∈ mask -> exists fl', set_ fl c 2 = Ok fl' /\ flagsOk n mask (ts ++ [c]) fl'.
Proof.
  intros [Hl H] Hc Hm. eexists. split; [apply set_Ok; lia|]. split; [rewrite insert_length; exact Hl|]. intros j Hj.
  destruct (decide (j = c)) as [->|Hne].
  - rewrite list_lookup_insert by lia. rewrite decide_True by exact Hm. rewrite decide_True; [reflexivity|]. apply elem_of_app. right. left.
  - rewrite list_lookup_insert_ne by congruence. rewrite (H j Hj). f_equal. destruct (decide (j ∈ mask)); [|reflexivity].
    apply decide_ext. rewrite elem_of_app, elem_of_list_singleton. tauto.
Qed.
Lemma flagsOk_again n mask ts fl c : flagsOk n mask ts fl -> (c ∈ mask -> c ∈ ts) -> flagsOk n mask (ts ++ [c]) fl.
Proof.
  intros [Hl H] Hc. split; [exact Hl|]. intros j Hj. rewrite (H j Hj). f_equal. destruct (decide (j ∈ mask)) as [Hm|]; [|reflexivity].
  apply decide_ext. rewrite elem_of_app, elem_of_list_singleton. split; [tauto|]. intros [?| ->]; auto.
Qed.
Lemma flagsOk_reset n mask ts fl : flagsOk n mask ts fl -> (forall c, c ∈ mask -> c < n) ->
  exists fl', foldM (fun fl c => set_ fl c 0) mask fl = Ok fl' /\ flagsOk n [] [] fl'.
Proof.
  intros [Hl H] Hr.
  destruct (foldM_inv (fun done fl' => length fl' = n /\ forall j, j < n -> fl' !! j = if decide (j ∈ done) then Some 0 else fl !! j)
    (fun fl c => set_ fl c 0) mask fl) as (fl' & E & Hl' & H').
  - split; [exact Hl|]. intros j _. rewrite decide_False by (intros H'; inversion H'). reflexivity.
  - intros done c rest s Hm [Hls Hs]. assert (c < n) by (apply Hr; rewrite Hm; apply elem_of_app; right; left).
    eexists. split; [apply set_Ok; lia|]. split; [rewrite insert_length; exact Hls|]. intros j Hj. destruct (decide (j = c)) as [->|Hne].
    + rewrite list_lookup_insert by lia. rewrite decide_True; [reflexivity|]. apply elem_of_app. right. left.
    + rewrite list_lookup_insert_ne by congruence. rewrite (Hs j Hj). apply decide_ext. rewrite elem_of_app, elem_of_list_singleton. tauto.
  - exists fl'. split; [exact E|]. split; [exact Hl'|]. intros j Hj. rewrite (H' j Hj). rewrite (decide_False (P := j ∈ [])) by (intros H0; inversion H0).
    destruct (decide (j ∈ mask)) as [Hm|Hm]; [reflexivity|]. rewrite (H j Hj), decide_False by exact Hm. reflexivity.
Qed.

(** ** Counting *)
Definition cleanS (n : nat) (s : spaS) : Prop := ss_committed s = 0 /\ flagsOk n [] [] (ss_flags s) /\ ss_possible s = [].
Definition invS (n : nat) (mask ts : list nat) (s : spaS) : Prop :=
  ss_committed s = length (touched_allowed mask ts) /\ flagsOk n mask ts (ss_flags s) /\ ss_possible s = mask.

Lemma spaS_insert_inv n mask ts s c : invS n mask ts s -> c < n -> exists s', spaS_insert c s = Ok s' /\ invS n mask (ts ++ [c]) s'.
Proof.
  intros (Hc & Hf & Hp) Hn. unfold spaS_insert. pose proof Hf as [_ Hfl]. rewrite (get_Some _ _ _ (Hfl c Hn)), bind_Ok.
  destruct (decide (c ∈ mask)) as [Hm|Hm]; [destruct (decide (c ∈ ts)) as [Ht|Ht]|].
  - exists s. split; [reflexivity|]. split; [rewrite touched_allowed_snoc, decide_False by tauto; exact Hc|]. split; [apply flagsOk_again; auto|exact Hp].
  - destruct (flagsOk_touch n mask ts _ c Hf Hn Hm) as (fl' & E & Hf'). rewrite E. eexists. split; [reflexivity|].
    split; [|split; [exact Hf'|exact Hp]]. rewrite touched_allowed_snoc, decide_True by tauto. rewrite app_length, <- Hc. reflexivity.
  - exists s. split; [reflexivity|]. split; [rewrite touched_allowed_snoc, decide_False by tauto; exact Hc|]. split; [apply flagsOk_again; tauto|exact Hp].
Qed.

Section Row.
Context (A B M : csr V) (i : nat).
Hypothesis Hco : compatible A B M.
Hypothesis Hi : i < rows A.
Let n := cols B.
Let mask := row_cols M i.
Let ps := row_prods A B i.

Lemma mask_range c : c ∈ mask -> c < n.
Proof. intros H. unfold n. rewrite <- (co_cols A B M Hco). eapply row_cols_range; [apply (co_M A B M Hco)|exact H]. Qed.
Lemma ps_range c a b : (c, a, b) ∈ ps -> c < n.
Proof. intros H. eapply row_prods_range; [apply (co_B A B M Hco)|exact H]. Qed.

Lemma spaSym_ok s : cleanS n s -> exists s', spaSym A B M i s = Ok (s', length (touched_allowed mask (pcols ps))) /\ cleanS n s'.
Proof.
  intros (Hc & Hf & Hp). unfold spaSym. rewrite mask_loop_foldM; [|apply (co_M A B M Hco)|rewrite (co_rows A B M Hco); exact Hi].
  destruct (foldM_inv (fun done s => invS n done [] s) (fun s c => spaS_allow c s) mask s) as (s1 & E1 & H1).
  { split; [exact Hc|]. split; [exact Hf|exact Hp]. }
  { intros done c rest s1 Hm (Hc1 & Hf1 & Hp1). unfold spaS_allow.
    destruct (flagsOk_allow n done _ c Hf1) as (fl & -> & Hf'); [apply mask_range; rewrite Hm; apply elem_of_app; right; left|].
    eexists. split; [reflexivity|]. split; [exact Hc1|]. split; [exact Hf'|]. simpl. rewrite Hp1. reflexivity. }
  fold mask. rewrite E1, bind_Ok.
  rewrite (prod_loop_foldM A B i _ (fun s p => spaS_insert (fst (fst p)) s)); [|apply (co_A A B M Hco)|apply (co_B A B M Hco)|apply (co_inner A B M Hco)|exact Hi|].
  2: { intros j k s' c a b _ Hk _ _. rewrite (get_Some _ _ _ Hk). reflexivity. }
  destruct (foldM_inv (fun done s => invS n mask (pcols done) s) (fun s p => spaS_insert (fst (fst p)) s) ps s1) as (s2 & E2 & H2); [exact H1| |].
  { intros done [[c a] b] rest s' Hps Hs'. rewrite fmap_app. simpl. apply spaS_insert_inv; [exact Hs'|]. apply (ps_range c a b). rewrite Hps. apply elem_of_app. right. left. }
  fold ps. rewrite E2, bind_Ok. cbv zeta. destruct H2 as (Hc2 & Hf2 & Hp2). unfold spaS_reset. rewrite Hp2.
  destruct (flagsOk_reset n mask (pcols ps) (ss_flags s2) Hf2) as (fl & -> & Hf'); [apply mask_range|].
  rewrite !bind_Ok, Hc2. eexists. split; [reflexivity|]. split; [reflexivity|]. split; [exact Hf'|reflexivity].
Qed.

(** ** Filling *)
Definition clean (n : nat) (s : spa V) : Prop := length (sp_values s) = n /\ flagsOk n [] [] (sp_flags s) /\ sp_present s = [] /\ sp_possible s = [].
Definition inv (mk : list nat) (done : list (nat * V * V)) (s : spa V) : Prop :=
  length (sp_values s) = n /\ flagsOk n mk (pcols done) (sp_flags s) /\ sp_present s = touched_allowed mk (pcols done) /\ sp_possible s = mk /\
  forall j v, j ∈ mk -> colval mul add' done j = Some v -> sp_values s !! j = Some v.

Lemma spa_insert_inv mk done s c a b : inv mk done s -> c < n -> exists s', spa_insert add c (mul a b) s = Ok s' /\ inv mk (done ++ [(c, a, b)]) s'.
Proof.
  intros (Hl & Hf & Hp & Hq & Hv) Hn. unfold spa_insert. pose proof Hf as [_ Hfl]. rewrite (get_Some _ _ _ (Hfl c Hn)), bind_Ok. unfold inv.
  rewrite fmap_app. cbn [fmap list_fmap fst snd]. rewrite touched_allowed_snoc.
  destruct (decide (c ∈ mk)) as [Hm|Hm]; [destruct (decide (c ∈ pcols done)) as [Ht|Ht]|].
  - destruct (colval mul add' done c) as [x|] eqn:Ex; [|apply colval_None in Ex; contradiction].
    simpl. rewrite (get_Some _ _ _ (Hv c x Hm Ex)), bind_Ok. rewrite set_Ok by lia. rewrite bind_Ok. eexists. split; [reflexivity|].
    cbn [sp_values sp_flags sp_present sp_possible]. split; [rewrite insert_length; exact Hl|]. split; [apply flagsOk_again; auto|].
    rewrite decide_False by tauto. split; [exact Hp|]. split; [exact Hq|]. intros j v Hj. rewrite colval_snoc. destruct (decide (c = j)) as [->|Hne].
    + rewrite Ex. intros [= <-]. apply list_lookup_insert. lia.
    + intros E. rewrite list_lookup_insert_ne by congruence. apply Hv; assumption.
  - assert (Ex : colval mul add' done c = None) by (apply colval_None; exact Ht).
    destruct (flagsOk_touch n mk (pcols done) _ c Hf Hn Hm) as (fl' & E & Hf').
    simpl. rewrite set_Ok by lia. rewrite bind_Ok. rewrite E, bind_Ok. eexists. split; [reflexivity|].
    cbn [sp_values sp_flags sp_present sp_possible]. split; [rewrite insert_length; exact Hl|]. split; [exact Hf'|].
    rewrite decide_True by tauto. split; [rewrite Hp; reflexivity|]. split; [exact Hq|]. intros j v Hj. rewrite colval_snoc. destruct (decide (c = j)) as [->|Hne].
    + rewrite Ex. intros [= <-]. apply list_lookup_insert. lia.
    + intros E'. rewrite list_lookup_insert_ne by congruence. apply Hv; assumption.
  - simpl. eexists. split; [reflexivity|]. split; [exact Hl|]. split; [apply flagsOk_again; tauto|].
    rewrite decide_False by tauto. split; [exact Hp|]. split; [exact Hq|]. intros j v Hj. rewrite colval_snoc. destruct (decide (c = j)) as [->|Hne]; [contradiction|].
    apply Hv; assumption.
Qed.

Lemma present_loop (vals : list V) (done : list (nat * V * V)) l : (forall j v, j ∈ l -> colval mul add' done j = Some v -> vals !! j = Some v) ->
  (forall j, j ∈ l -> j ∈ pcols done) -> forall acc,
  foldM (fun l c => v <- get vals c ;; Ok (l ++ [(c, v)])) l acc = Ok (acc ++ mrow mul add' done l).
Proof.
  induction l as [|c l IH]; intros Hv Hin acc; [simpl; rewrite app_nil_r; reflexivity|].
  rewrite mrow_cons. destruct (colval mul add' done c) as [v|] eqn:E; [|apply colval_None in E; destruct E; apply Hin; left].
  cbn [foldM]. rewrite (get_Some _ _ _ (Hv c v ltac:(left) E)). cbn [bind]. rewrite IH, <- app_assoc; [reflexivity| |].
  - intros j w Hj. apply Hv. right. exact Hj.
  - intros j Hj. apply Hin. right. exact Hj.
Qed.

Lemma spaNum_ok s : clean n s -> exists s', spaNum mul add A B M i s = Ok (s', masked_row mul add' (row_entries A i) (row_entries B) (touched_allowed mask (touched_cols A B i))) /\ clean n s'.
Proof.
  intros (Hl & Hf & Hp & Hq). unfold spaNum. rewrite mask_loop_foldM; [|apply (co_M A B M Hco)|rewrite (co_rows A B M Hco); exact Hi].
  destruct (foldM_inv (fun done s => inv done [] s) (fun s c => spa_allow c s) mask s) as (s1 & E1 & H1).
  { split; [exact Hl|]. split; [exact Hf|]. split; [exact Hp|]. split; [exact Hq|]. intros j v Hj. inversion Hj. }
  { intros done c rest s1 Hm (Hl1 & Hf1 & Hp1 & Hq1 & Hv1). unfold spa_allow.
    destruct (flagsOk_allow n done _ c Hf1) as (fl & -> & Hf'); [apply mask_range; rewrite Hm; apply elem_of_app; right; left|].
    eexists. split; [reflexivity|]. split; [exact Hl1|]. split; [exact Hf'|]. split; [exact Hp1|]. split; [simpl; rewrite Hq1; reflexivity|].
    intros j v _ E. discriminate. }
  fold mask. rewrite E1, bind_Ok.
  rewrite (prod_loop_foldM A B i _ (fun s p => spa_insert add (fst (fst p)) (mul (snd (fst p)) (snd p)) s)); [|apply (co_A A B M Hco)|apply (co_B A B M Hco)|apply (co_inner A B M Hco)|exact Hi|].
  2: { intros j k s' c a b Hj Hk Hb _. rewrite (get_Some _ _ _ Hj), (get_Some _ _ _ Hb), (get_Some _ _ _ Hk). reflexivity. }
  destruct (foldM_inv (fun done s => inv mask done s) (fun s p => spa_insert add (fst (fst p)) (mul (snd (fst p)) (snd p)) s) ps s1) as (s2 & E2 & H2); [exact H1| |].
  { intros done [[c a] b] rest s' Hps Hs'. simpl. apply spa_insert_inv; [exact Hs'|]. apply (ps_range c a b). rewrite Hps. apply elem_of_app. right. left. }
  fold ps. rewrite E2, bind_Ok. destruct H2 as (Hl2 & Hf2 & Hp2 & Hq2 & Hv2). unfold spa_outputReset.
  rewrite (present_loop _ ps), bind_Ok.
  - rewrite Hq2. destruct (flagsOk_reset n mask (pcols ps) (sp_flags s2) Hf2) as (fl & -> & Hf'); [apply mask_range|].
    rewrite bind_Ok, Hp2. exists (mkSpa (sp_values s2) fl [] []). split; [|split; [exact Hl2|split; [exact Hf'|split; reflexivity]]].
    f_equal. f_equal. rewrite app_nil_l. unfold ps. rewrite mrow_masked, row_prods_cols. reflexivity.
  - intros j v Hj. rewrite Hp2 in Hj. apply elem_touched_allowed in Hj as [Hj _]. apply Hv2. exact Hj.
  - intros j Hj. rewrite Hp2 in Hj. apply elem_touched_allowed in Hj as [_ Hj]. exact Hj.
Qed.

Lemma spaRow_length : length (masked_row mul add' (row_entries A i) (row_entries B) (touched_allowed mask (touched_cols A B i))) = length (touched_allowed mask (pcols ps)).
Proof.
  unfold ps. rewrite row_prods_cols, <- mrow_masked, <- (fmap_length fst), mrow_cols; [reflexivity|].
  intros j Hj. apply elem_touched_allowed in Hj as [_ Hj]. rewrite row_prods_cols. exact Hj.
Qed.
End Row.

(** Row [i] of the result. *)
Definition spaRow (A B M : csr V) (i : nat) : list (nat * V) :=
  masked_row mul add' (row_entries A i) (row_entries B) (touched_allowed (row_cols M i) (touched_cols A B i)).

Theorem spaSpGEMM_ok W top nts nt (A B M : csr V) : compatible A B M -> rows A <> 0 -> 1 <= nt -> (N.of_nat (rows A + 1) < 2 ^ 17)%N ->
  sum_list (nprods A B <$> seq 0 (rows A)) + nt <= W -> 8 < W -> (forall i, i < rows A -> 2 * Nat.min (nprods A B i) (cols B) <= W) ->
  spaSpGEMM_ends dflt mul add W top nts nt A B M (assemble (spaRow A B M) (rows A) (cols B)) /\
  (forall C, spaSpGEMM_ends dflt mul add W top nts nt A B M C -> C = assemble (spaRow A B M) (rows A) (cols B)).
Proof.
  intros Hco H0 Hnt HN HW H8 Hf. destruct Hco as [HA HB HM Hin Hr Hcl] eqn:Eco. clear Eco.
  destruct (set_max_bin_ok W top A B nts nt 8 HA HB Hin H0 Hnt HN HW ltac:(lia) H8 Hf) as [Pb Ub].
  destruct (binFor_chunks W A B nt 8 Hnt HN HW) as (asg & Ec & Hs & _).
  assert (Hlt : forall t its i, asg !! t = Some its -> i ∈ its -> i < rows A) by (intros t its i; apply asg_lt, Hs).
  destruct (two_pass dflt top (rows A) (cols B) nts (spaRow A B M) (fun _ => Ok (spaS_new (cols B))) (spaSym A B M) asg (fun _ => cleanS (cols B))
    (fun _ => Ok (spa_new dflt (cols B))) (fun _ => spaNum mul add A B M) asg (fun _ => clean (cols B)) Hs Hs) with (nz0 := replicate (rows A) 0) as (P & U & _).
  - intros t its _. eexists. split; [reflexivity|]. split; [reflexivity|]. split; [apply flagsOk_new|reflexivity].
  - intros t its i s Ht Hi Hcs. unfold spaRow. rewrite spaRow_length. apply spaSym_ok; eauto.
  - intros t its _. eexists. split; [reflexivity|]. split; [apply replicate_length|]. split; [apply flagsOk_new|split; reflexivity].
  - intros t its i s Ht Hi Hcs. apply spaNum_ok; eauto.
  - apply replicate_length.
  - exact HN.
  - split.
    + exists (binFor W A B nt 8), asg. split; [exact Pb|]. split; [exact Ec|exact P].
    + intros C (b & asg' & Qb & Qc & Q). apply Ub in Qb as ->. rewrite Ec in Qc. injection Qc as <-. apply U, Q.
Qed.

Theorem spaSpGEMM_large W top nts nt (A B M C : csr V) : compatible A B M -> (2 ^ 17 <= N.of_nat (rows A + 1))%N -> 1 <= nts <= rows A + 1 ->
  ~ spaSpGEMM_ends dflt mul add W top nts nt A B M C.
Proof.
  intros [HA HB HM Hin Hr Hcl] HN Hnt (b & asg & Qb & _). revert Qb. apply set_max_bin_large; assumption.
Qed.
End Spa.
