(** The loops of all_parallel_tc.cpp. *)
From Coq Require Import NArith ZArith Ascii String.
From stdpp Require Import numbers list_numbers gmap.
From Verif Require Import BaseProofs IoSpec ReportModel ObjModel ObjSpec ObjProofs RunModel RunSpec RunProofs AllMainModel AllMainLoops ParTcModel.
From Verif Require Import Base Spec.
Local Open Scope nat_scope.

Section One.
Context {V : Type} (dflt : V) (pick : gmap nat (ablock V) -> nat) (null0 : bool).
Hypothesis pick_fresh : forall h, h !! pick h = None.
Notation heap := (gmap nat (ablock V)).
Context (b : abench V) (t : nat) (none : bool).
Hypothesis Hk : a_kind b <> KAssign.
Hypothesis Hex : exists R, a_prod b t 0 R.
Hypothesis Hres : forall R, a_prod b t 0 R -> shape R /\ rows R <> 0 /\ (nnz R =? 0) = none.
Let prod := fun t (_ : nat) => a_prod b t 0.
Let k := a_kind b.
Let L := lost_result null0 none + lost_local null0 k t.
Local Notation E0 := (mkCsr 0 0 0 [] [] []).

Let Pex : forall nz, exists R, prod t nz R.
Proof. intros; exact Hex. Qed.
Let Psh : forall nz R, prod t nz R -> handed k R.
Proof. intros nz R HR. split; [apply Hres, HR|]. unfold k. destruct (a_kind b); try exact Logic.I. congruence. Qed.
Let Hu : uniform prod t none.
Proof. intros nz R HR; split; apply Hres, HR. Qed.

(** An empty object, after which [n] blocks are lost. *)
Definition emptyAt (h : heap) (n : nat) (s : obj * heap) : Prop := St h n s E0 /\ owned (fst s) = [] /\ o_nnz (fst s) = 0.

Lemma step_call h n s : emptyAt h n s ->
  (exists r, call dflt pick null0 k (a_prod b) t s r) /\
  forall r, call dflt pick null0 k (a_prod b) t s r -> exists s' R, r = Ok s' /\ St h (n + L) s' R /\ a_prod b t 0 R.
Proof.
  intros (HS & HO & HN). destruct (call_step dflt pick null0 pick_fresh prod k t h Pex Psh n s _ HS) as [[r0 Hr0] Hall]. split.
  - exists r0. apply call_zero; [exact HN|exact Hr0].
  - intros r Hr. apply call_zero in Hr; [|exact HN]. destruct (Hall r Hr) as (s' & R & -> & HR). exists s', R. split; [reflexivity|]. rewrite HO in HR.
    pose proof (waste_u pick null0 pick_fresh prod k t h Pex Psh none _ R Hu (proj1 (proj2 HR))) as Hw. fold L in Hw.
    destruct HR as (HR1 & HR2 & _). split; [|exact HR2]. replace (n + L) with (n + (if frees k (fst s) then 0 else length (@nil nat)) + extra null0 k t + wasted null0 R); [exact HR1|].
    destruct (frees k (fst s)); cbn [length]; lia.
Qed.
Lemma step_true h n s : emptyAt h n s ->
  (exists r, parStep dflt pick null0 k (a_prod b) t true s r) /\
  forall r, parStep dflt pick null0 k (a_prod b) t true s r -> exists s', r = Ok s' /\ emptyAt h (n + L) s'.
Proof.
  intros HE. destruct (step_call h n s HE) as [[r0 Hr0] Hall]. split; [eexists; exists r0; split; [exact Hr0|reflexivity]|].
  intros r (r1 & Hr1 & ->). destruct (Hall r1 Hr1) as (s1 & R & -> & HS & _). cbn [bind].
  destruct (empty_step pick pick_fresh h _ s1 R HS) as (s2 & -> & HS2 & O2 & N2). exists s2. split; [reflexivity|]. split; auto.
Qed.
Lemma step_false h n s : emptyAt h n s ->
  (exists r, parStep dflt pick null0 k (a_prod b) t false s r) /\
  forall r, parStep dflt pick null0 k (a_prod b) t false s r -> exists s' R, r = Ok s' /\ St h (n + L) s' R /\ a_prod b t 0 R.
Proof.
  intros HE. destruct (step_call h n s HE) as [[r0 Hr0] Hall]. split; [eexists; exists r0; split; [exact Hr0|reflexivity]|].
  intros r (r1 & Hr1 & ->). destruct (Hall r1 Hr1) as (s1 & R & -> & HS & HR). cbn [bind]. eauto.
Qed.
Lemma iters_ok h n s : emptyAt h n s ->
  (exists r, parIters dflt pick null0 k (a_prod b) t (seq 0 4) s r) /\
  forall r, parIters dflt pick null0 k (a_prod b) t (seq 0 4) s r -> exists s' R, r = Ok s' /\ St h (n + 4 * L) s' R /\ a_prod b t 0 R.
Proof.
  intros HE. cbn [seq parIters Nat.ltb Nat.leb Nat.sub].
  assert (G : forall P : obj * heap -> res (obj * heap) -> Prop, forall Q : (obj * heap) -> Prop, forall n s, emptyAt h n s ->
    (forall s', emptyAt h (n + L) s' -> (exists r, P s' r) /\ forall r, P s' r -> exists s2, r = Ok s2 /\ Q s2) ->
    (exists r r1, parStep dflt pick null0 k (a_prod b) t true s r1 /\ match r1 with Err e => r = Err e | Ok s => P s r end) /\
    forall r, (exists r1, parStep dflt pick null0 k (a_prod b) t true s r1 /\ match r1 with Err e => r = Err e | Ok s => P s r end) -> exists s2, r = Ok s2 /\ Q s2).
  { intros P Q n' s' HE' HP. destruct (step_true h n' s' HE') as [[r0 Hr0] Hall]. split.
    - destruct (Hall r0 Hr0) as (s1 & -> & H1). destruct (HP s1 H1) as [[r Hr] _]. exists r, (Ok s1). auto.
    - intros r (r1 & Hr1 & Hr). destruct (Hall r1 Hr1) as (s1 & -> & H1). apply (HP s1 H1), Hr. }
  set (Q := fun s' => exists R, St h (n + 4 * L) s' R /\ a_prod b t 0 R).
  enough (K : (exists r, exists r1, parStep dflt pick null0 k (a_prod b) t true s r1 /\ match r1 with Err e => r = Err e | Ok s =>
      exists r1, parStep dflt pick null0 k (a_prod b) t true s r1 /\ match r1 with Err e => r = Err e | Ok s =>
      exists r1, parStep dflt pick null0 k (a_prod b) t true s r1 /\ match r1 with Err e => r = Err e | Ok s =>
      exists r1, parStep dflt pick null0 k (a_prod b) t false s r1 /\ match r1 with Err e => r = Err e | Ok s => r = Ok s end end end end) /\
    forall r, (exists r1, parStep dflt pick null0 k (a_prod b) t true s r1 /\ match r1 with Err e => r = Err e | Ok s =>
      exists r1, parStep dflt pick null0 k (a_prod b) t true s r1 /\ match r1 with Err e => r = Err e | Ok s =>
      exists r1, parStep dflt pick null0 k (a_prod b) t true s r1 /\ match r1 with Err e => r = Err e | Ok s =>
      exists r1, parStep dflt pick null0 k (a_prod b) t false s r1 /\ match r1 with Err e => r = Err e | Ok s => r = Ok s end end end end) -> exists s', r = Ok s' /\ Q s').
  { destruct K as [K1 K2]. split; [exact K1|]. intros r Hr. destruct (K2 r Hr) as (s' & -> & R & H1 & H2). eauto. }
  apply (G (fun s r => exists r1, parStep dflt pick null0 k (a_prod b) t true s r1 /\ match r1 with Err e => r = Err e | Ok s =>
      exists r1, parStep dflt pick null0 k (a_prod b) t true s r1 /\ match r1 with Err e => r = Err e | Ok s =>
      exists r1, parStep dflt pick null0 k (a_prod b) t false s r1 /\ match r1 with Err e => r = Err e | Ok s => r = Ok s end end end) Q n s HE). intros s1 H1.
  apply (G (fun s r => exists r1, parStep dflt pick null0 k (a_prod b) t true s r1 /\ match r1 with Err e => r = Err e | Ok s =>
      exists r1, parStep dflt pick null0 k (a_prod b) t false s r1 /\ match r1 with Err e => r = Err e | Ok s => r = Ok s end end) Q _ s1 H1). intros s2 H2.
  apply (G (fun s r => exists r1, parStep dflt pick null0 k (a_prod b) t false s r1 /\ match r1 with Err e => r = Err e | Ok s => r = Ok s end) Q _ s2 H2). intros s3 H3.
  destruct (step_false h _ s3 H3) as [[r0 Hr0] Hall]. split.
  - destruct (Hall r0 Hr0) as (s4 & R & -> & _). exists (Ok s4), (Ok s4). auto.
  - intros r (r1 & Hr1 & Hr). destruct (Hall r1 Hr1) as (s4 & R & -> & H4 & HR). exists s4. split; [exact Hr|]. exists R. split; [|exact HR].
    replace (n + 4 * L) with (n + L + L + L + L) by lia. exact H4.
Qed.
Lemma parOne_ok h : (exists r, parOne dflt pick null0 t b h r) /\
  forall r, parOne dflt pick null0 t b h r -> exists h' R, r = Ok (h', [mkPLine (a_label b) (asInt (nnz R)) t]) /\ a_prod b t 0 R /\ h ⊆ h' /\ size h' = size h + 5 * L.
Proof.
  assert (S0 : emptyAt h 0 (defaultCtor, h)).
  { split; [|split; reflexivity]. split; [apply (inv_start pick pick_fresh)|apply (default_holds pick pick_fresh)]. }
  destruct (step_true h 0 _ S0) as [[r0 Hr0] Hall]. split.
  - destruct (Hall r0 Hr0) as (s & -> & HS). destruct (iters_ok h _ s HS) as [[r2 Hr2] _]. eexists. exists (Ok s). split; [exact Hr0|]. exists r2. split; [exact Hr2|reflexivity].
  - intros r (r1 & Hr1 & Hr). destruct (Hall r1 Hr1) as (s & -> & HS). destruct Hr as (r2 & Hr2 & ->).
    destruct (proj2 (iters_ok h _ s HS) r2 Hr2) as (s' & R & -> & HS' & HR). destruct s' as [C' h']. cbn [bind fst snd].
    assert (EN : o_nnz C' = nnz R) by (destruct HS' as [_ H']; apply (h_nnz _ _ _ H')).
    destruct (empty_step pick pick_fresh h _ (C', h') R HS') as (s1 & E1 & HS1 & _). cbn [fst snd] in E1. rewrite E1. destruct s1 as [C1 h1]. cbn [bind].
    destruct (empty_step pick pick_fresh h _ (C1, h1) _ HS1) as (s2 & E2 & HS2 & O2 & _). cbn [fst snd] in E2. rewrite E2. destruct s2 as [C2 h2]. cbn [bind].
    rewrite EN. exists h2, R. split; [reflexivity|]. split; [exact HR|]. destruct HS2 as [I2 _]. cbn [fst snd] in *. rewrite O2 in I2. split; [apply I2|]. rewrite (i_size _ _ _ _ I2). simpl. lia.
Qed.
End One.
