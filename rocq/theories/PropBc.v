(** C52: betweenness centrality (msp_bc_internal). *)
From Coq Require Import NArith ZArith QArith.Qcanon.
From stdpp Require Import numbers list_numbers gmap.
From Verif Require Import BaseProofs ConcProofs Examples MsaModel HashModel HeapModel DriverModel DriverProofs AlgModel DriverStatements GraphCalls BcWalks BcModel BcProofs BcCalls.
From Verif Require Import Base Spec.

(** ** C52.  For every directed graph A and every list of sources (also with repetitions) the program ends, after at
    most as many rounds as there are vertices, with delta(v) the sum, over the sources s and all targets t, of the share
    of the shortest paths from s to t on which v lies strictly in between.

    [bcCalls n s mxmP mxmC]: the calls of one of the pairs of drivers (one or two phases; MSA or hash), for all thread
    counts, schedules and scratch contents.  [sp], [spv]: the number of shortest paths, and of those through v; such
    numbers exist (below).  Missing from the full statement: the heap, for which it is false (below); values are exact
    rationals. *)
Theorem C52_centrality_partial :
  forall n A srcs mxmP mxmC, bcCalls n (length srcs) mxmP mxmC -> good n A -> 0 < length srcs -> Forall (fun v => v < n) srcs ->
  (exists rounds delta, bcRun mxmC mxmP A srcs rounds delta) /\
  forall rounds delta sp spv, bcRun mxmC mxmP A srcs rounds delta ->
    (forall s t, s ∈ srcs -> t < n -> counts (shortest (edge A) s t) (sp s t)) ->
    (forall s t v, s ∈ srcs -> t < n -> v < n -> counts (fun l => shortest (edge A) s t l /\ v ∈ l) (spv s t v)) ->
    rounds <= n /\ delta = (fun v => Some (centrality n srcs sp spv v)) <$> seq 0 n.
Proof.
  intros n A srcs mxmP mxmC Hc HA Hs Hf.
  assert (Hn : 1 <= n). { destruct srcs as [|x l]; [cbn in Hs; lia|]. apply Forall_cons in Hf as [Hx _]. lia. }
  destruct (bcCalls_ok n (length srcs) mxmP mxmC Hn Hc) as [HP HC]. apply bc_correct; assumption.
Qed.
Print Assumptions C52_centrality_partial.

(** The numbers of shortest paths exist. *)
Theorem C52_counts_exist :
  forall n (A : csr Qc) s t v, good n A -> s < n ->
  (exists m, counts (shortest (edge A) s t) m) /\ exists m, counts (fun l => shortest (edge A) s t l /\ v ∈ l) m.
Proof. intros n A s t v HA Hs. split; eexists; [apply (counts_sp n)|apply (counts_spv n)]; assumption. Qed.
Print Assumptions C52_counts_exist.

(** Edges 0 -> 1, 0 -> 2, 1 -> 3, 2 -> 3, 3 -> 4; sources 0 and 1. *)
Definition bcA : csr Qc := mkCsr 5 5 5 [0;2;3;4;5;5] [1;2;3;3;4] [1;1;1;1;1]%Qc.
Lemma bcA_good : good 5 bcA.
Proof.
  split; [prove_wf|]. split; [|split; reflexivity]. intros i Hi. cbn in Hi.
  do 5 (destruct i as [|i]; [vm_compute; repeat constructor|]). lia.
Qed.
Example C52_example :
  exists rounds delta, bcRun (yields2p (msaAlgC fSecond Qcplus true true 8)) (yields2p (msaAlg fSecond Qcplus true 8)) bcA [0; 1] rounds delta /\
    delta = Some <$> [0; 1; 1; 2; 0]%Qc.
Proof.
  destruct (C52_centrality_partial 5 bcA [0;1] _ _ (bc_msa2 5 2 true 8 ltac:(lia) ltac:(cbn; lia)) bcA_good ltac:(cbn; lia) ltac:(repeat constructor; lia)) as [(rounds & delta & HR) Hall].
  exists rounds, delta. split; [exact HR|]. destruct (Hall rounds delta (sig 5 (eb bcA)) (sigv 5 (eb bcA)) HR) as [_ ->].
  - intros s t Hs Ht. apply counts_sp; [exact bcA_good|]. set_solver by lia.
  - intros s t v Hs Ht Hv. apply counts_spv; [exact bcA_good|]. set_solver by lia.
  - cbn [seq]. rewrite !fmap_cons, !fmap_nil. repeat (apply (f_equal2 cons); [f_equal; apply Qc_is_canon; vm_compute; reflexivity|]). reflexivity.
Qed.

(** ** Finding: the heap.  The complemented heap kernels stop at their assertion on rows whose mask row is empty while
    there are products (C07); in the first round that is every vertex which is not a source and has an edge from one. *)
Definition bcE : csr Qc := mkCsr 2 2 1 [0;1;1] [1] [1]%Qc.
Definition bcEt : csr Qc := mkCsr 2 2 1 [0;0;1] [0] [1]%Qc.
Definition bcF : csr Qc := mkCsr 2 1 1 [0;1;1] [0] [1]%Qc.
Lemma bcE_good : good 2 bcE.
Proof. split; [prove_wf|]. split; [|split; reflexivity]. intros i Hi. cbn in Hi. do 2 (destruct i as [|i]; [vm_compute; repeat constructor|]). lia. Qed.
Lemma bcEt_holds : holds 2 2 bcEt (fun i j => ent bcE j i).
Proof.
  split; [prove_wf|]. split; [|split; [reflexivity|split; [reflexivity|]]].
  - intros i Hi. cbn in Hi. do 2 (destruct i as [|i]; [vm_compute; repeat constructor|]). lia.
  - intros i j Hi Hj. destruct i as [|[|i]]; [| |lia]; (destruct j as [|[|j]]; [| |lia]); reflexivity.
Qed.
Lemma bcF_holds : holds 2 1 bcF (buildF [0]).
Proof.
  split; [prove_wf|]. split; [|split; [reflexivity|split; [reflexivity|]]].
  - intros i Hi. cbn in Hi. do 2 (destruct i as [|i]; [vm_compute; repeat constructor|]). lia.
  - intros i j Hi Hj. destruct i as [|[|i]]; [| |lia]; (destruct j as [|j]; [|lia]); reflexivity.
Qed.
Lemma bc_heap_compat : compatible bcEt bcF bcF.
Proof. constructor; first [apply bcEt_holds|apply bcF_holds|reflexivity]. Qed.

Lemma bc_heap1 C : ~ yields1p (heapAlgC fSecond Qcplus 100 24) bcEt bcF bcF C.
Proof.
  intros H. specialize (H 1 0 1 2 1 sc0 (st4 bcEt bcF bcF) ltac:(lia) eq_refl eq_refl eq_refl).
  destruct H as (A & B & M & HA & HB & HM & _ & f & c & t & Hp & e & m & ss & HR & _).
  assert (A = bcEt) as -> by (change (Ok bcEt = Ok A) in HA; congruence). assert (B = bcF) as -> by (change (Ok bcF = Ok B) in HB; congruence).
  assert (M = bcF) as -> by (change (Ok bcF = Ok M) in HM; congruence).
  destruct (prepare_ok (heapAlgC fSecond Qcplus 100 24) bcEt bcF bcF bc_heap_compat ltac:(cbn; lia) 1 ltac:(lia)) as (c' & _ & Hp').
  destruct (prepare_unique _ _ _ _ _ _ _ _ _ _ _ Hp Hp') as (-> & -> & ->). clear Hp Hp'.
  inversion HR as [|g phs e0 m0 ss0 m1 ss1 e1 m2 ss2 Hal _ E1 E2|]; subst. destruct Hal as [Hal _].
  enough (Ho : Err AssertFail = Ok (m1, ss1)) by discriminate. apply Hal.
  eapply (out_fault _ _ _ 0); [eapply rtc_l; [|apply rtc_refl]; eapply (step_wr _ _ 0); [vm_compute; reflexivity|]| |].
  - eexists. vm_compute. reflexivity.
  - reflexivity.
  - reflexivity.
Qed.
Lemma bc_heap2 C : ~ yields2p (heapAlgC fSecond Qcplus 100 24) bcEt bcF bcF C.
Proof.
  intros H. specialize (H 1 0 1 2 1 3 sc0 (st4 bcEt bcF bcF) ltac:(lia) eq_refl eq_refl eq_refl eq_refl ltac:(lia)).
  destruct H as (A & B & M & HA & HB & HM & _ & f & c & t & Hp & e & m & ss & HR & _).
  assert (A = bcEt) as -> by (change (Ok bcEt = Ok A) in HA; congruence). assert (B = bcF) as -> by (change (Ok bcF = Ok B) in HB; congruence).
  assert (M = bcF) as -> by (change (Ok bcF = Ok M) in HM; congruence).
  destruct (prepare_ok (heapAlgC fSecond Qcplus 100 24) bcEt bcF bcF bc_heap_compat ltac:(cbn; lia) 1 ltac:(lia)) as (c' & _ & Hp').
  destruct (prepare_unique _ _ _ _ _ _ _ _ _ _ _ Hp Hp') as (-> & -> & ->). clear Hp Hp'.
  inversion HR as [|g phs e0 m0 ss0 m1 ss1 e1 m2 ss2 Hal _ E1 E2|]; subst. destruct Hal as [Hal _].
  enough (Ho : Err AssertFail = Ok (m1, ss1)) by discriminate. apply Hal.
  eapply (out_fault _ _ _ 0); [eapply rtc_l; [eapply (step_wr _ _ 0); [vm_compute; reflexivity|eexists; vm_compute; reflexivity]|]|..].
  - eapply rtc_l; [|apply rtc_refl]. eapply (step_rd _ _ 0); [reflexivity|vm_compute; reflexivity].
  - reflexivity.
  - reflexivity.
Qed.

Theorem C52_heap_refuted :
  good 2 bcE /\
  ~ (exists rounds delta, bcRun (yields1p (heapAlgC fSecond Qcplus 100 24)) (yields1p (heapAlg fSecond Qcplus 100 0 24)) bcE [0] rounds delta) /\
  ~ (exists rounds delta, bcRun (yields2p (heapAlgC fSecond Qcplus 100 24)) (yields2p (heapAlg fSecond Qcplus 100 0 24)) bcE [0] rounds delta).
Proof.
  split; [exact bcE_good|].
  assert (Hgen : forall mxmC mxmP, (forall C, ~ mxmC bcEt bcF bcF C) -> ~ (exists rounds delta, bcRun mxmC mxmP bcE [0] rounds delta)).
  { intros mxmC mxmP Hno (rounds & delta & _ & _ & F & Atr & preds & N & _ & _ & _ & HF & HT & HS & _).
    change (holds 2 2 Atr (fun i j => ent bcE j i)) in HT. change (holds 2 1 F (buildF [0])) in HF.
    rewrite (holds_unique _ _ _ _ _ HT bcEt_holds), (holds_unique _ _ _ _ _ HF bcF_holds) in HS. inversion HS; eapply Hno; eassumption. }
  split; apply Hgen; [exact bc_heap1|exact bc_heap2].
Qed.
Print Assumptions C52_heap_refuted.
