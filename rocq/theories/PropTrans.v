(** C36: the atomic transpose. *)
From Verif Require Import TransModel TransProofs TransFill MatSpec MatStatements MatProofs Assemble ConcProofs ParProofs SortProofs Examples.
From Verif Require Import Base Spec.

Section C36.
Context {V : Type}.

(** Finding: the function is undefined for every matrix.  The pointer loop runs to [i <= n] and reads
    atomicColPtr[n], one past the n allocated counters, whatever the schedule. *)
Theorem C36_transpose_refuted (A : csr V) (cp0 ri0 : list nat) (cv0 : list V) : wf A ->
  csr2csc_outcome [] A cp0 ri0 cv0 (Err OutOfBounds) /\
  forall o, csr2csc_outcome [] A cp0 ri0 cv0 o -> o = Err OutOfBounds.
Proof.
  intros Hw.
  assert (Hc : forall asg m cnts, schedule (rows A) asg -> aoutcome (fetchMem [] A, fetchRows A <$> asg) (Ok m) -> holds m aCnt cnts ->
    colPtrLoop (cols A) cnts cp0 = Err OutOfBounds).
  { intros asg m cnts Hs Ho Hh. destruct (fetch_outcome A Hw [] asg _ Hs Ho) as (m' & G & [= <-] & _ & _ & HG & _).
    rewrite app_nil_r in HG. assert (cnts = (fun c => length (ofCol (colids A) G c)) <$> seq 0 (cols A)) as ->.
    { apply list_eq. intros i. rewrite Hh, HG. reflexivity. }
    apply colPtr_fails. }
  split.
  - pose proof (sched_one (rows A)) as Hs. destruct (fetch_exists A Hw [] _ Hs) as [m Ho].
    destruct (fetch_outcome A Hw [] _ _ Hs Ho) as (m' & G & [= <-] & _ & _ & HG & _).
    eapply co_ptr; [exact Hs|exact Ho|exact HG|]. eapply Hc; eauto.
  - intros o Ho. destruct Ho as [asg f Hs Ho|asg m cnts f Hs Ho Hh Hp|asg m cnts cp dloc asg2 f Hs Ho Hh Hp|asg m cnts cp dloc asg2 ri cv rs Hs Ho Hh Hp].
    + destruct (fetch_outcome A Hw [] asg _ Hs Ho) as (m' & G & [=] & _).
    + rewrite (Hc _ _ _ Hs Ho Hh) in Hp. congruence.
    + rewrite (Hc _ _ _ Hs Ho Hh) in Hp. congruence.
    + rewrite (Hc _ _ _ Hs Ho Hh) in Hp. congruence.
Qed.

(** The first loop always ends and has no data race, whatever the schedule. *)
Theorem C36_reserve_slots (past : list nat) (A : csr V) (asg : list (list nat)) : wf A -> schedule (rows A) asg ->
  (exists b, forall k c', nsteps astep k (fetchMem past A, fetchRows A <$> asg) c' -> k <= b) /\
  (forall c', rtc astep (fetchMem past A, fetchRows A <$> asg) c' -> ~ arace c') /\
  (forall o, aoutcome (fetchMem past A, fetchRows A <$> asg) o -> exists m, o = Ok m).
Proof.
  intros Hw Hs. destruct (fetch_ends A Hw past asg Hs) as [H1 H2]. split; [exact H1|]. split; [exact H2|].
  intros o Ho. destruct (fetch_outcome A Hw past asg o Hs Ho) as (m & _ & -> & _). eauto.
Qed.

(** Full statement: the code as it stands ([past = []]) yields a matrix with the same triples.  That is
    false (above).  Proved: were there a cell behind the counters and one more cell behind the n + 1
    column pointers, every run, whatever the two schedules and interleavings, would end with a
    well-formed matrix holding exactly the triples of the input, and the second loop would be race free. *)
Theorem C36_transpose_partial (past : list nat) (A : csr V) (cp0 ri0 : list nat) (cv0 : list V) :
  wf A -> 1 <= length past -> cols A + 2 <= length cp0 -> length ri0 = nnz A -> length cv0 = nnz A ->
  (exists o, csr2csc_outcome past A cp0 ri0 cv0 o) /\
  (forall o, csr2csc_outcome past A cp0 ri0 cv0 o -> exists cp ri cv, o = Ok (cp, ri, cv) /\
     let X := mkCsc (rows A) (cols A) (nnz A) (take (cols A + 1) cp) ri cv in
     wf_csc X /\ triples_csc X ≡ₚ triples A) /\
  (forall asg m cnts cp dloc, schedule (rows A) asg -> aoutcome (fetchMem past A, fetchRows A <$> asg) (Ok m) ->
     holds m aCnt cnts -> colPtrLoop (cols A) cnts cp0 = Ok cp -> holds m aDloc dloc ->
     (exists m', parfor_ends (fillRow A cp dloc) (rows A) (arrays ri0 cv0) m') /\
     parfor_race_free (fillRow A cp dloc) (rows A) (arrays ri0 cv0)).
Proof.
  intros Hw Hpast Hcp0 Hri Hcv.
  assert (Hmain : forall asg m, schedule (rows A) asg -> aoutcome (fetchMem past A, fetchRows A <$> asg) (Ok m) ->
    exists G its cnts cp dloc, fetched (colids A) (cols A) past G m /\ Forall2 (isItem A) G its /\ holds m aCnt cnts /\ holds m aDloc dloc /\
      colPtrLoop (cols A) cnts cp0 = Ok cp /\ take (cols A + 1) cp = rowptr (result A its) /\
      parfor_ends (fillRow A cp dloc) (rows A) (arrays ri0 cv0) (arrays (colids (result A its)) (values (result A its))) /\
      parfor_race_free (fillRow A cp dloc) (rows A) (arrays ri0 cv0)).
  { intros asg m Hs Ho. destruct (fetch_outcome A Hw past asg _ Hs Ho) as (m' & G & [= <-] & HF).
    destruct (items_ex A Hw past G m HF) as [its HI].
    destruct (colPtr_ok A (fun c => length (ofCol (colids A) G c)) past cp0 Hpast Hcp0) as (cp & Hp & Hpl & Hpv).
    assert (Hpre : forall c, c <= cols A -> cp !! c = Some (pre (bucket its) c)).
    { intros c Hc. rewrite (Hpv c Hc). f_equal. unfold MatProofs.psum, pre. f_equal. apply list_fmap_ext. intros i x _. simpl.
      symmetry. apply (bucket_len A Hw G its HI). }
    assert (Hd : exists dloc, holds m aDloc dloc).
    { destruct HF as (Hperm & _ & _ & Hd & Hdom).
      exists ((fun j => default 0 (m !! (aDloc, j))) <$> seq 0 (length (colids A))). intros i.
      destruct (Nat.lt_ge_cases i (length (colids A))) as [Hi|Hi].
      - rewrite seq_fmap_lookup by exact Hi. destruct (proj2 (Hdom i) Hi) as [x ->]. reflexivity.
      - rewrite lookup_ge_None_2 by (rewrite seq_fmap_length; exact Hi). destruct (m !! (aDloc, i)) as [x|] eqn:E; [|reflexivity].
        assert (i < length (colids A)) by (apply Hdom; eauto). lia. }
    destruct Hd as [dloc Hd].
    destruct (fill_ok A Hw past G m HF its HI cp dloc ri0 cv0 Hpre Hd Hri Hcv) as [He Hrf].
    pose proof HF as (_ & _ & HG & _). eexists G, its, _, cp, dloc. do 4 (split; [eassumption|]). split; [exact Hp|]. split; [|auto].
    apply list_eq. intros i. destruct (Nat.lt_ge_cases i (cols A + 1)) as [Hi|Hi].
    - rewrite lookup_take by exact Hi. rewrite (Hpre i) by lia. simpl. rewrite seq_fmap_lookup by exact Hi. reflexivity.
    - rewrite lookup_take_ge by exact Hi. simpl. rewrite lookup_ge_None_2; [reflexivity|]. rewrite seq_fmap_length. exact Hi. }
  assert (Huniq : forall (m : gmap loc nat) a l l', holds m a l -> holds m a l' -> l = l').
  { intros m a l l' H1 H2. apply list_eq. intros i. rewrite H1, H2. reflexivity. }
  split; [|split].
  - pose proof (sched_one (rows A)) as Hs. destruct (fetch_exists A Hw past _ Hs) as [m Ho].
    destruct (Hmain _ _ Hs Ho) as (G & its & cnts & cp & dloc & _ & _ & Hc & Hd & Hp & _ & He & _).
    eexists. eapply co_done; [exact Hs|exact Ho|exact Hc|exact Hp|exact Hd|exact Hs|]. apply (He _ Hs).
  - intros o Ho. destruct Ho as [asg f Hs Ho|asg m cnts f Hs Ho Hh Hp|asg m cnts cp dloc asg2 f Hs Ho Hh Hp Hd Hs2 Ho2|asg m cnts cp dloc asg2 ri cv rs Hs Ho Hh Hp Hd Hs2 Ho2].
    + destruct (fetch_outcome A Hw past asg _ Hs Ho) as (m' & G & [=] & _).
    + destruct (Hmain _ _ Hs Ho) as (G & its & cnts' & cp' & dloc' & _ & _ & Hc & _ & Hp' & _).
      rewrite (Huniq _ _ _ _ Hh Hc), Hp' in Hp. discriminate.
    + destruct (Hmain _ _ Hs Ho) as (G & its & cnts' & cp' & dloc' & _ & _ & Hc & Hd' & Hp' & _ & He & _).
      rewrite (Huniq _ _ _ _ Hh Hc), Hp' in Hp. injection Hp as <-. rewrite (Huniq _ _ _ _ Hd Hd') in Ho2.
      apply (He asg2 Hs2) in Ho2. discriminate.
    + destruct (Hmain _ _ Hs Ho) as (G & its & cnts' & cp' & dloc' & HF & HI & Hc & Hd' & Hp' & Hrp & He & _).
      rewrite (Huniq _ _ _ _ Hh Hc), Hp' in Hp. injection Hp as <-. rewrite (Huniq _ _ _ _ Hd Hd') in Ho2.
      apply (He asg2 Hs2) in Ho2. injection Ho2 as Em _. apply arrays_inj in Em as [-> ->].
      eexists _, _, _. split; [reflexivity|]. rewrite Hrp. split; [exact (result_wf A Hw past G m HF its HI)|exact (result_triples A Hw past G m HF its HI)].
  - intros asg m cnts cp dloc Hs Ho Hh Hp Hd.
    destruct (Hmain _ _ Hs Ho) as (G & its & cnts' & cp' & dloc' & _ & _ & Hc & Hd' & Hp' & _ & He & Hrf).
    rewrite (Huniq _ _ _ _ Hh Hc), Hp' in Hp. injection Hp as <-. rewrite (Huniq _ _ _ _ Hd Hd'). eauto.
Qed.
End C36.
Print Assumptions C36_transpose_refuted.
Print Assumptions C36_reserve_slots.
Print Assumptions C36_transpose_partial.

(** The hypotheses are met by the 3 x 3 example matrix. *)
Example C36_exA : csr2csc_outcome [] exA (replicate 4 0) (replicate 5 0) (replicate 5 0%Z) (Err OutOfBounds).
Proof. apply (C36_transpose_refuted exA), exA_wf. Qed.

Example C36_exA_partial : exists cp ri cv, csr2csc_outcome [9] exA (replicate 5 0) (replicate (nnz exA) 0) (replicate (nnz exA) 0%Z) (Ok (cp, ri, cv)) /\
  triples_csc (mkCsc 3 3 (nnz exA) (take 4 cp) ri cv) ≡ₚ triples exA.
Proof.
  destruct (C36_transpose_partial [9] exA (replicate 5 0) (replicate (nnz exA) 0) (replicate (nnz exA) 0%Z)) as ((o & Ho) & Hall & _);
    [apply exA_wf|simpl; lia|simpl; lia|reflexivity|reflexivity|].
  destruct (Hall o Ho) as (cp & ri & cv & -> & _ & Ht). exists cp, ri, cv. split; [exact Ho|exact Ht].
Qed.

(** The order inside a column does depend on the schedule: two rows, one column. *)
Definition exCol : csr Z := mkCsr 2 1 2 [0; 1; 2] [0; 0] [5%Z; 7%Z].
Example exCol_wf : wf exCol.
Proof. prove_wf. Qed.
Lemma exCol_mem a i : fetchMem [9] exCol !! (a, i) =
  if decide (a = aCnt) then [0; 9] !! i else if decide (a = aDloc) then [0; 0] !! i else None.
Proof.
  unfold fetchMem. rewrite lookup_union, !ScanProofs.cells_lookup. simpl. destruct (decide (a = aCnt)) as [->|].
  - simpl. destruct ([0; 9] !! i); reflexivity.
  - destruct (decide (a = aDloc)) as [->|]; [simpl; destruct ([0; 0] !! i); reflexivity|reflexivity].
Qed.
Example C36_order :
  csr2csc_outcome [9] exCol [0; 0; 0] [0; 0] [0; 0]%Z (Ok ([0; 2; 11], [0; 1], [5; 7]%Z)) /\
  csr2csc_outcome [9] exCol [0; 0; 0] [0; 0] [0; 0]%Z (Ok ([0; 2; 11], [1; 0], [7; 5]%Z)).
Proof.
  split.
  - apply (co_done _ _ _ _ _ [[0; 1]]
      (<[(aDloc, 1) := 1]> (<[(aCnt, 0) := 2]> (<[(aDloc, 0) := 0]> (<[(aCnt, 0) := 1]> (fetchMem [9] exCol)))))
      [2; 9] [0; 2; 11] [0; 1] [[0; 1]] [0; 1] [5; 7]%Z [tt]).
    + unfold schedule. reflexivity.
    + eapply aout_done with (ps := [ARet]); [|repeat constructor].
      eapply rtc_l; [eapply (astep_fadd _ _ 0); [reflexivity|rewrite exCol_mem; reflexivity]|]. simpl.
      eapply rtc_l; [eapply (astep_wr _ _ 0); [reflexivity|vm_compute; eauto]|]. simpl.
      eapply rtc_l; [eapply (astep_fadd _ _ 0); [reflexivity|vm_compute; reflexivity]|]. simpl.
      eapply rtc_l; [eapply (astep_wr _ _ 0); [reflexivity|vm_compute; eauto]|]. simpl. reflexivity.
    + intros i. destruct i as [|[|i]]; [reflexivity..|]. rewrite !lookup_insert_ne by discriminate. rewrite exCol_mem. reflexivity.
    + reflexivity.
    + intros i. destruct i as [|[|i]]; [reflexivity..|]. rewrite !lookup_insert_ne by discriminate. rewrite exCol_mem. reflexivity.
    + unfold schedule. reflexivity.
    + apply (out_done _ _ [tt]).
      eapply rtc_l; [eapply (step_wr _ _ 0); [reflexivity|vm_compute; eauto]|]. simpl.
      eapply rtc_l; [eapply (step_wr _ _ 0); [reflexivity|vm_compute; eauto]|]. simpl.
      eapply rtc_l; [eapply (step_wr _ _ 0); [reflexivity|vm_compute; eauto]|]. simpl.
      eapply rtc_l; [eapply (step_wr _ _ 0); [reflexivity|vm_compute; eauto]|]. simpl.
      match goal with |- rtc _ (?m, _) (?m', _) => assert (E : m = m'); [|rewrite E; reflexivity] end.
      apply map_eq. intros [[|[|a]] [|[|p]]]; try (vm_compute; reflexivity); rewrite !lookup_insert_ne by discriminate; rewrite !arrays_lookup; reflexivity.
  - apply (co_done _ _ _ _ _ [[1; 0]]
      (<[(aDloc, 0) := 1]> (<[(aCnt, 0) := 2]> (<[(aDloc, 1) := 0]> (<[(aCnt, 0) := 1]> (fetchMem [9] exCol)))))
      [2; 9] [0; 2; 11] [1; 0] [[0; 1]] [1; 0] [7; 5]%Z [tt]).
    + unfold schedule. apply Permutation_swap.
    + eapply aout_done with (ps := [ARet]); [|repeat constructor].
      eapply rtc_l; [eapply (astep_fadd _ _ 0); [reflexivity|rewrite exCol_mem; reflexivity]|]. simpl.
      eapply rtc_l; [eapply (astep_wr _ _ 0); [reflexivity|vm_compute; eauto]|]. simpl.
      eapply rtc_l; [eapply (astep_fadd _ _ 0); [reflexivity|vm_compute; reflexivity]|]. simpl.
      eapply rtc_l; [eapply (astep_wr _ _ 0); [reflexivity|vm_compute; eauto]|]. simpl. reflexivity.
    + intros i. destruct i as [|[|i]]; [reflexivity..|]. rewrite !lookup_insert_ne by discriminate. rewrite exCol_mem. reflexivity.
    + reflexivity.
    + intros i. destruct i as [|[|i]]; [reflexivity..|]. rewrite !lookup_insert_ne by discriminate. rewrite exCol_mem. reflexivity.
    + unfold schedule. reflexivity.
    + apply (out_done _ _ [tt]).
      eapply rtc_l; [eapply (step_wr _ _ 0); [reflexivity|vm_compute; eauto]|]. simpl.
      eapply rtc_l; [eapply (step_wr _ _ 0); [reflexivity|vm_compute; eauto]|]. simpl.
      eapply rtc_l; [eapply (step_wr _ _ 0); [reflexivity|vm_compute; eauto]|]. simpl.
      eapply rtc_l; [eapply (step_wr _ _ 0); [reflexivity|vm_compute; eauto]|]. simpl.
      match goal with |- rtc _ (?m, _) (?m', _) => assert (E : m = m'); [|rewrite E; reflexivity] end.
      apply map_eq. intros [[|[|a]] [|[|p]]]; try (vm_compute; reflexivity); rewrite !lookup_insert_ne by discriminate; rewrite !arrays_lookup; reflexivity.
Qed.
