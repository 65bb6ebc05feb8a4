(** The measuring loop of the programs in sample/ and their input. *)
From Coq Require Import NArith ZArith Ascii String.
From stdpp Require Import numbers list_numbers gmap.
From Verif Require Import BaseProofs IoSpec IoModel MatModel ReportModel ObjModel ObjSpec ObjProofs RunModel RunSpec RunProofs AllMainModel AllMainLoops SampleModel.
From Verif Require Import Base Spec.
Local Open Scope nat_scope.

Section One.
Context {V : Type} (dflt : V) (pick : gmap nat (ablock V) -> nat) (null0 : bool).
Hypothesis pick_fresh : forall h, h !! pick h = None.
Notation heap := (gmap nat (ablock V)).
Context (b : abench V) (t : nat) (none : bool).
Hypothesis Hk : a_kind b <> KAssign.
Hypothesis Hex : exists R, a_prod b t 0 R.
Hypothesis Hres : forall R, a_prod b t 0 R -> shape R /\ rows R <> 0 /\ (nnz R =? 0) = none.
Let prod := fun t (_ : nat) => a_prod b t 0.
Let k := a_kind b.
Let L := lost_result null0 none + lost_local null0 k t.
Local Notation E0 := (mkCsr 0 0 0 [] [] []).

Let Pex : forall nz, exists R, prod t nz R.
Proof. intros; exact Hex. Qed.
Let Psh : forall nz R, prod t nz R -> handed k R.
Proof. intros nz R HR. split; [apply Hres, HR|]. unfold k. destruct (a_kind b); try exact Logic.I. congruence. Qed.
Let Hu : uniform prod t none.
Proof. intros nz R HR; split; apply Hres, HR. Qed.

(** An empty object, after which [n] blocks are lost. *)
Definition freshAt (h : heap) (n : nat) (s : obj * heap) : Prop := St h n s E0 /\ owned (fst s) = [] /\ o_nnz (fst s) = 0.

Lemma smp_call h n s : freshAt h n s ->
  (exists r, call dflt pick null0 k (a_prod b) t s r) /\
  forall r, call dflt pick null0 k (a_prod b) t s r -> exists s' R, r = Ok s' /\ St h (n + L) s' R /\ a_prod b t 0 R.
Proof.
  intros (HS & HO & HN). destruct (call_step dflt pick null0 pick_fresh prod k t h Pex Psh n s _ HS) as [[r0 Hr0] Hall]. split.
  - exists r0. apply call_zero; [exact HN|exact Hr0].
  - intros r Hr. apply call_zero in Hr; [|exact HN]. destruct (Hall r Hr) as (s' & R & -> & HR). exists s', R. split; [reflexivity|]. rewrite HO in HR.
    pose proof (waste_u pick null0 pick_fresh prod k t h Pex Psh none _ R Hu (proj1 (proj2 HR))) as Hw. fold L in Hw.
    destruct HR as (HR1 & HR2 & _). split; [|exact HR2]. replace (n + L) with (n + (if frees k (fst s) then 0 else length (@nil nat)) + extra null0 k t + wasted null0 R); [exact HR1|].
    destruct (frees k (fst s)); cbn [length]; lia.
Qed.
Lemma smp_true h n s : freshAt h n s ->
  (exists r, smpStep dflt pick null0 b t true s r) /\ forall r, smpStep dflt pick null0 b t true s r -> exists s', r = Ok s' /\ freshAt h (n + L) s'.
Proof.
  intros HE. destruct (smp_call h n s HE) as [[r0 Hr0] Hall]. split; [eexists; exists r0; split; [exact Hr0|reflexivity]|].
  intros r (r1 & Hr1 & ->). destruct (Hall r1 Hr1) as (s1 & R & -> & HS & _). cbn [bind].
  destruct (empty_step pick pick_fresh h _ s1 R HS) as (s2 & -> & HS2 & O2 & N2). exists s2. split; [reflexivity|]. split; auto.
Qed.
Lemma smp_false h n s : freshAt h n s ->
  (exists r, smpStep dflt pick null0 b t false s r) /\ forall r, smpStep dflt pick null0 b t false s r -> exists s' R, r = Ok s' /\ St h (n + L) s' R /\ a_prod b t 0 R.
Proof.
  intros HE. destruct (smp_call h n s HE) as [[r0 Hr0] Hall]. split; [eexists; exists r0; split; [exact Hr0|reflexivity]|].
  intros r (r1 & Hr1 & ->). destruct (Hall r1 Hr1) as (s1 & R & -> & HS & HR). cbn [bind]. eauto.
Qed.
Lemma smp_iters iters h : forall m i n s, i + Datatypes.S m = iters -> freshAt h n s ->
  (exists r, smpIters dflt pick null0 b iters t (seq i (Datatypes.S m)) s r) /\
  forall r, smpIters dflt pick null0 b iters t (seq i (Datatypes.S m)) s r -> exists s' R, r = Ok s' /\ St h (n + Datatypes.S m * L) s' R /\ a_prod b t 0 R.
Proof.
  induction m as [|m IH]; intros i n s Hi HE.
  - cbn [seq smpIters]. destruct (Nat.ltb_spec i (iters - 1)); [lia|]. destruct (smp_false h n s HE) as [[r0 Hr0] Hall]. split.
    + destruct (Hall r0 Hr0) as (s' & R & -> & _). exists (Ok s'), (Ok s'). auto.
    + intros r (r1 & Hr1 & Hr). destruct (Hall r1 Hr1) as (s' & R & -> & HS & HR). exists s', R. rewrite Nat.mul_1_l. auto.
  - change (seq i (Datatypes.S (Datatypes.S m))) with (i :: seq (Datatypes.S i) (Datatypes.S m)). cbn [smpIters]. destruct (Nat.ltb_spec i (iters - 1)); [|lia]. destruct (smp_true h n s HE) as [[r0 Hr0] Hall]. split.
    + destruct (Hall r0 Hr0) as (s' & -> & HE'). destruct (IH (Datatypes.S i) _ s' ltac:(lia) HE') as [[r Hr] _]. exists r, (Ok s'). auto.
    + intros r (r1 & Hr1 & Hr). destruct (Hall r1 Hr1) as (s' & -> & HE'). destruct (proj2 (IH (Datatypes.S i) _ s' ltac:(lia) HE') r Hr) as (s2 & R & -> & HS & HR).
      exists s2, R. split; [reflexivity|]. split; [|exact HR]. replace (n + Datatypes.S (Datatypes.S m) * L) with (n + L + Datatypes.S m * L) by lia. exact HS.
Qed.
Lemma smpOne_ok iters h : 1 <= iters -> (exists r, smpOne dflt pick null0 b iters t h r) /\
  forall r, smpOne dflt pick null0 b iters t h r -> exists h' R, r = Ok (h', [mkSLine (a_label b) (nnz R) t]) /\ a_prod b t 0 R /\ h ⊆ h' /\ size h' = size h + (iters + 1) * L.
Proof.
  intros Hi. destruct iters as [|m]; [lia|].
  assert (S0 : freshAt h 0 (defaultCtor, h)).
  { split; [|split; reflexivity]. split; [apply (inv_start pick pick_fresh)|apply (default_holds pick pick_fresh)]. }
  destruct (smp_true h 0 _ S0) as [[r0 Hr0] Hall]. split.
  - destruct (Hall r0 Hr0) as (s & -> & HS). destruct (smp_iters (Datatypes.S m) h m 0 _ s eq_refl HS) as [[r2 Hr2] _]. eexists. exists (Ok s). split; [exact Hr0|]. exists r2. split; [exact Hr2|reflexivity].
  - intros r (r1 & Hr1 & Hr). destruct (Hall r1 Hr1) as (s & -> & HS). destruct Hr as (r2 & Hr2 & ->).
    destruct (proj2 (smp_iters (Datatypes.S m) h m 0 _ s eq_refl HS) r2 Hr2) as (s' & R & -> & HS' & HR). destruct s' as [C' h']. cbn [bind fst snd].
    assert (EN : o_nnz C' = nnz R) by (destruct HS' as [_ H']; apply (h_nnz _ _ _ H')).
    destruct (empty_step pick pick_fresh h _ (C', h') R HS') as (s1 & E1 & HS1 & _). cbn [fst snd] in E1. rewrite E1. destruct s1 as [C1 h1]. cbn [bind].
    destruct (empty_step pick pick_fresh h _ (C1, h1) _ HS1) as (s2 & E2 & HS2 & O2 & _). cbn [fst snd] in E2. rewrite E2. destruct s2 as [C2 h2]. cbn [bind].
    rewrite EN. exists h2, R. split; [reflexivity|]. split; [exact HR|]. destruct HS2 as [I2 _]. cbn [fst snd] in *. rewrite O2 in I2. split; [apply I2|]. rewrite (i_size _ _ _ _ I2). simpl. lia.
Qed.
End One.

(** The input. *)
Lemma inputS_ok {V} (dflt : V) ofInt stdsort itmax file X T : (forall r, inputA dflt ofInt stdsort itmax file r <-> r = Ok (X, T)) -> forall r, inputS dflt ofInt stdsort itmax file r <-> r = Ok (X, T).
Proof.
  intros H. assert (G : forall rX, readASCII ofInt dflt stdsort (Z.of_nat itmax) file rX -> rX = Ok X /\ csrOfCsc dflt X = Ok T).
  { intros rX HrX. destruct rX as [X'|e].
    - pose proof (proj1 (H _) (ex_intro _ (Ok X') (conj HrX eq_refl))) as E. cbn [bind] in E. destruct (csrOfCsc dflt X') as [T'|] eqn:ET; [|discriminate]. cbn [bind] in E.
      destruct (sortedFlag (rows T') _ _); [|discriminate]. cbn [bind] in E. destruct (sortedFlag (c_cols X') _ _); [|discriminate]. injection E as -> ->. auto.
    - pose proof (proj1 (H _) (ex_intro _ (Err e) (conj HrX eq_refl))) as E. discriminate. }
  intros r. split.
  - intros (rX & HrX & ->). destruct (G rX HrX) as [-> E]. cbn [bind]. rewrite E. reflexivity.
  - intros ->. destruct (proj2 (H _) eq_refl) as (rX & HrX & _). exists rX. split; [exact HrX|]. destruct (G rX HrX) as [-> E]. cbn [bind]. rewrite E. reflexivity.
Qed.
(** Equal sizes leave nothing behind. *)
Lemma nothing_lost {X} (h h' : gmap nat X) : h ⊆ h' -> size h' = size h -> h' = h.
Proof.
  intros Hsub Hsz. symmetry. apply map_eq. intros i. destruct (h !! i) as [x|] eqn:Ei; [symmetry; eapply lookup_weaken; eauto|].
  destruct (h' !! i) as [y|] eqn:Ey; [|reflexivity]. exfalso. pose proof (subseteq_size (dom h ∪ {[i]}) (dom h') : _ -> _) as Hs.
  rewrite size_union in Hs by (intros z Hz1 Hz2; apply elem_of_singleton in Hz2 as ->; apply elem_of_dom in Hz1 as [? Hz1]; congruence). rewrite size_singleton, !size_dom in Hs.
  assert (size h + 1 <= size h'); [|lia]. apply Hs. intros z Hz. apply elem_of_union in Hz as [Hz | Hz]; [apply (subseteq_dom _ _ Hsub), Hz|apply elem_of_singleton in Hz as ->; apply elem_of_dom; eauto].
Qed.
