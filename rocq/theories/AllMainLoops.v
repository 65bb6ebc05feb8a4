(** The loops of MaskedAllSpGEMM.cpp. *)
From Coq Require Import NArith ZArith Ascii String.
From stdpp Require Import numbers list_numbers gmap.
From Verif Require Import BaseProofs IoSpec ReportModel PropReport ObjModel ObjSpec ObjProofs RunModel RunSpec RunProofs AllMainModel.
From Verif Require Import Base Spec.
Local Open Scope nat_scope.

Lemma loop_ext {X} (b b' : X -> res X -> Prop) : (forall s r, b s r <-> b' s r) -> forall n s r, loopR b n s r -> loopR b' n s r.
Proof.
  intros H n s r. induction 1 as [s|n s e Hb|n s s' r Hb Hl IH]; [constructor|apply loop_fault, H, Hb|eapply loop_next; [apply H, Hb|exact IH]].
Qed.

Section Loops.
Context {V : Type} (dflt : V) (encI : nat -> list N) (encV : V -> list N) (pick : gmap nat (ablock V) -> nat) (null0 : bool).
Hypothesis pick_fresh : forall h, h !! pick h = None.
Hypotheses (HI : forall a, length (encI a) = 4) (HV : forall a, length (encV a) = 8).
Notation heap := (gmap nat (ablock V)).

Lemma call_zero k (prod : nat -> nat -> csr V -> Prop) t s r : o_nnz (fst s) = 0 -> call dflt pick null0 k prod t s r <-> call dflt pick null0 k (fun t _ => prod t 0) t s r.
Proof. intros E. unfold call. rewrite E. reflexivity. Qed.
Lemma measured_zero k (prod : nat -> nat -> csr V -> Prop) t s r : measured dflt pick null0 k prod t s r <-> measured dflt pick null0 k (fun t _ => prod t 0) t s r.
Proof.
  unfold measured. destruct (makeEmpty (fst s) (snd s)) as [s'|e] eqn:E; [|reflexivity]. apply call_zero.
  unfold makeEmpty in E. destruct (if 0 <? o_nnz (fst s) then _ else _) as [h1|] eqn:E1; cbn [bind] in E; [|discriminate].
  destruct (if 0 <? o_rows (fst s) then _ else _) as [h2|] eqn:E2; cbn [bind] in E; [|discriminate]. injection E as <-. reflexivity.
Qed.

(** ** The report *)
Lemma checksumA_ok (R : csr V) : shape R -> exists c, checksumA encI encV (nnz R) (colids R) (values R) = Ok c.
Proof.
  intros (L1 & L2 & L3). unfold checksumA.
  destruct (calc_ok dflt (fun _ _ _ => True) tt (fun x _ => x) (fun x _ => x) encI encV 4 8 HI HV (mjoin (encV <$> values R)) (nnz R * 8)) as [a ->]; [rewrite (mjoin_len _ _ _ HV), L3; lia|].
  destruct (calc_ok dflt (fun _ _ _ => True) tt (fun x _ => x) (fun x _ => x) encI encV 4 8 HI HV (mjoin (encI <$> colids R)) (nnz R * 4)) as [b ->]; [rewrite (mjoin_len _ _ _ HI), L2; lia|]. cbn [bind]. eauto.
Qed.
Lemma reportA_ok name fn flop t h0 n nz (prod : nat -> nat -> csr V -> Prop) s R c : Result prod t h0 n nz s R -> shape R -> checksumA encI encV (nnz R) (colids R) (values R) = Ok c ->
  reportA encI encV name fn flop t (fst s) (snd s) = match fn with None => Err OutOfBounds | Some f => Ok (mkALine name t f flop (nnz R) c) end.
Proof.
  intros ([_ H] & _ & (P1 & P2 & P3)) (L1 & L2 & L3) Hc. unfold reportA.
  assert (nn : forall p, p <> PUninit -> exists b, notNull p = Ok b) by (intros [| |b]; [contradiction|eexists; reflexivity..]).
  assert (Ev : readV (o_va (fst s)) (o_nnz (fst s)) (snd s) = Ok (values R)).
  { unfold readV. destruct (nn _ P3) as [? ->]. cbn [bind]. rewrite (h_nnz _ _ _ H). destruct (Nat.eqb_spec (nnz R) 0) as [E|E].
    - destruct (values R); [reflexivity|cbn in L3; lia].
    - destruct (h_ent _ _ _ H ltac:(lia)) as (b & b' & _ & -> & _ & Hb). cbn [blkV]. rewrite Hb. reflexivity. }
  assert (Ei : readI (o_ci (fst s)) (o_nnz (fst s)) (snd s) = Ok (colids R)).
  { unfold readI. destruct (nn _ P2) as [? ->]. cbn [bind]. rewrite (h_nnz _ _ _ H). destruct (Nat.eqb_spec (nnz R) 0) as [E|E].
    - destruct (colids R); [reflexivity|cbn in L2; lia].
    - destruct (h_ent _ _ _ H ltac:(lia)) as (b & b' & -> & _ & Hb & _). cbn [blkI]. rewrite Hb. reflexivity. }
  rewrite Ev, Ei. cbn [bind]. rewrite (h_nnz _ _ _ H), Hc. cbn [bind]. reflexivity.
Qed.

(** ** One number of threads *)
Definition calls (niters : nat) : nat := if niters =? 1 then 1 else niters + 1.
Section One.
Context (b : abench V) (fn : option text) (flop niters t : nat) (none : bool).
Hypothesis Hn : (N.of_nat niters <= 2147483647)%N.
Hypothesis Hk : a_kind b <> KAssign.
Hypothesis Hex : exists R, a_prod b t 0 R.
Hypothesis Hres : forall R, a_prod b t 0 R -> shape R /\ rows R <> 0 /\ (nnz R =? 0) = none.

Definition oneOk (h : heap) (r : res (heap * aline)) : Prop :=
  match fn with
  | None => r = Err OutOfBounds
  | Some f => exists h' R c, r = Ok (h', mkALine (a_label b) t f flop (nnz R) c) /\ a_prod b t 0 R /\ checksumA encI encV (nnz R) (colids R) (values R) = Ok c /\
      h ⊆ h' /\ size h' = size h + calls niters * (lost_result null0 none + lost_local null0 (a_kind b) t)
  end.
Lemma runOneA_ok h : (exists r, runOneA dflt encI encV pick null0 b fn flop niters t h r) /\ forall r, runOneA dflt encI encV pick null0 b fn flop niters t h r -> oneOk h r.
Proof.
  set (prod := fun t (_ : nat) => a_prod b t 0). set (k := a_kind b) in *.
  assert (Pex : forall nz, exists R, prod t nz R) by (intros; exact Hex).
  assert (Psh : forall nz R, prod t nz R -> handed k R).
  { intros nz R HR. split; [apply Hres, HR|]. destruct k; try exact Logic.I. congruence. }
  assert (Hu : uniform prod t none) by (intros nz R HR; split; apply Hres, HR).
  assert (S0 : St h 0 (defaultCtor, h) (mkCsr 0 0 0 [] [] [])) by (split; [apply (inv_start pick pick_fresh)|apply (default_holds pick pick_fresh)]).
  set (L := lost_result null0 none + lost_local null0 k t).
  (* the first call *)
  assert (HW : (exists r, if niters =? 1 then r = Ok (defaultCtor, h) else call dflt pick null0 k (a_prod b) t (defaultCtor, h) r) /\
    forall r, (if niters =? 1 then r = Ok (defaultCtor, h) else call dflt pick null0 k (a_prod b) t (defaultCtor, h) r) ->
      exists s X, r = Ok s /\ St h ((calls niters - niters) * L) s X /\ (niters <> 1 -> Result prod t h ((calls niters - niters) * L) 0 s X)).
  { unfold calls. destruct (Nat.eqb_spec niters 1) as [->|E].
    - split; [eauto|]. intros r ->. exists (defaultCtor, h), (mkCsr 0 0 0 [] [] []). split; [reflexivity|]. split; [exact S0|congruence].
    - destruct (call_step dflt pick null0 pick_fresh prod k t h Pex Psh 0 (defaultCtor, h) _ S0) as [[r0 Hr0] Hall]. split.
      + exists r0. apply call_zero; [reflexivity|exact Hr0].
      + intros r Hr. apply call_zero in Hr; [|reflexivity]. destruct (Hall r Hr) as (s & R & -> & HR).
        assert (En : 0 + (if frees k (fst (defaultCtor, h)) then 0 else length (owned (fst (defaultCtor, h)))) + extra null0 k t + wasted null0 R = (niters + 1 - niters) * L).
        { pose proof (waste_u pick null0 pick_fresh prod k t h Pex Psh none 0 R Hu (proj1 (proj2 HR))) as Hw. fold L in Hw. replace (niters + 1 - niters) with 1 by lia.
          destruct (frees k (fst (defaultCtor, h))); cbn [fst owned defaultCtor o_nnz o_rows length app Nat.ltb Nat.leb]; simpl; lia. }
        rewrite En in HR. exists s, R. split; [reflexivity|]. split; [apply HR|]. intros _. exact HR. }
  destruct HW as [Hex1 Hall1].
  assert (HM : forall s X, St h ((calls niters - niters) * L) s X -> (niters <> 1 -> Result prod t h ((calls niters - niters) * L) 0 s X) ->
    (exists r, intLoop (measured dflt pick null0 k (a_prod b) t) niters s r) /\
    forall r, intLoop (measured dflt pick null0 k (a_prod b) t) niters s r -> exists s' R, r = Ok s' /\ Result prod t h (calls niters * L) 0 s' R).
  { intros s X HS HR0. unfold intLoop. destruct (N.leb_spec (N.of_nat niters) 2147483647); [|lia].
    destruct (measured_loop dflt pick null0 pick_fresh prod k t h Pex Psh niters _ s X HS) as [[r0 Hr0] Hall]. split.
    - exists r0. eapply loop_ext; [|exact Hr0]. intros; symmetry; apply measured_zero.
    - intros r Hr. apply (loop_ext _ (measured dflt pick null0 k prod t)) in Hr; [|intros; apply measured_zero].
      destruct (Hall r Hr) as (s' & n' & -> & H0 & Hpos & Hn'). specialize (Hn' none Hu). fold L in Hn'.
      assert (Hc : niters <= calls niters) by (unfold calls; destruct (Nat.eqb_spec niters 1); lia).
      assert (n' = calls niters * L) as -> by (rewrite Hn'; nia).
      destruct (decide (niters = 0)) as [E0|E0].
      + destruct (H0 E0) as [-> _]. exists s, X. split; [reflexivity|]. specialize (HR0 ltac:(lia)). replace (calls niters) with (calls niters - niters) by lia. exact HR0.
      + destruct (Hpos E0) as [R HR]. exists s', R. auto. }
  assert (HE : forall s R, Result prod t h (calls niters * L) 0 s R -> exists c, checksumA encI encV (nnz R) (colids R) (values R) = Ok c /\
    exists h', (l <- reportA encI encV (a_label b) fn flop t (fst s) (snd s) ;; ' (C, h) <- makeEmpty (fst s) (snd s) ;; ' (C, h) <- makeEmpty C h ;; Ok (h, l)) =
      match fn with None => Err OutOfBounds | Some f => Ok (h', mkALine (a_label b) t f flop (nnz R) c) end /\ h ⊆ h' /\ size h' = size h + calls niters * L).
  { intros s R HR. pose proof (proj1 (Psh 0 R (proj1 (proj2 HR)))) as HshR. destruct (checksumA_ok R HshR) as [c Hc]. exists c. split; [exact Hc|].
    rewrite (reportA_ok _ fn flop t h _ 0 prod s R c HR HshR Hc).
    destruct (empty_step pick pick_fresh h _ s R (proj1 HR)) as (s1 & -> & HS1 & O1 & _). destruct s1 as [C1 h1]. cbn [bind].
    destruct (empty_step pick pick_fresh h _ (C1, h1) _ HS1) as (s2 & E2 & HS2 & O2 & _). cbn [fst snd] in E2. rewrite E2. destruct s2 as [C2 h2]. cbn [bind].
    exists h2. destruct HS2 as [I2 _]. cbn [fst snd] in *. rewrite O2 in I2. split; [destruct fn; reflexivity|]. split; [apply I2|]. rewrite (i_size _ _ _ _ I2). simpl. lia. }
  split.
  - destruct Hex1 as [r1 Hr1]. destruct (Hall1 r1 Hr1) as (s & X & -> & HS & HR). destruct (HM s X HS HR) as [[r2 Hr2] Hall2].
    destruct (Hall2 r2 Hr2) as (s' & R & -> & HR'). destruct s' as [C' h']. eexists. exists (Ok s). split; [exact Hr1|]. exists (Ok (C', h')). split; [exact Hr2|reflexivity].
  - intros r (r1 & Hr1 & Hr). destruct (Hall1 r1 Hr1) as (s & X & -> & HS & HR). destruct Hr as (r2 & Hr2 & Hr).
    destruct (proj2 (HM s X HS HR) r2 Hr2) as (s' & R & -> & HR'). destruct (HE s' R HR') as (c & Hc & h' & E & Hsub & Hsz). destruct s' as [C' hC]. cbn [fst snd] in E. rewrite E in Hr. subst r.
    unfold oneOk. destruct fn; [|reflexivity]. exists h', R, c. split; [reflexivity|]. split; [apply HR'|]. auto.
Qed.
End One.
End Loops.

(** ** Loops *)
Section Seq.
Context {V : Type}.
Notation heap := (gmap nat (ablock V)).
Lemma seqA_ok {X L} (body : X -> heap -> res (heap * list L) -> Prop) (Q : X -> list L -> Prop) (c : X -> nat) (l : list X) :
  (forall x h, x ∈ l -> (exists r, body x h r) /\ forall r, body x h r -> exists h' ls, r = Ok (h', ls) /\ h ⊆ h' /\ Q x ls /\ size h' = size h + c x) ->
  forall h, (exists r, seqA body l h r) /\ forall r, seqA body l h r -> exists h' lss, r = Ok (h', mjoin lss) /\ h ⊆ h' /\ Forall2 Q l lss /\ size h' = size h + sum_list (c <$> l).
Proof using Type.
  induction l as [|x l IH]; intros H h.
  - split; [eexists; reflexivity|]. intros r ->. exists h, []. split; [reflexivity|]. split; [reflexivity|]. split; [constructor|simpl; lia].
  - destruct (H x h ltac:(left)) as [[r0 Hr0] Hall]. assert (IH' := IH ltac:(intros y h' Hy; apply H; right; exact Hy)). split.
    + destruct (Hall r0 Hr0) as (h1 & ls & -> & _). destruct (IH' h1) as [[r2 Hr2] _]. eexists. exists (Ok (h1, ls)). split; [exact Hr0|]. exists r2. split; [exact Hr2|reflexivity].
    + intros r (r1 & Hr1 & Hr). destruct (Hall r1 Hr1) as (h1 & ls & -> & K1 & K2 & K3). destruct Hr as (r2 & Hr2 & ->).
      destruct (proj2 (IH' h1) r2 Hr2) as (h2 & lss & -> & L1 & L2 & L3). cbn [bind]. exists h2, (ls :: lss). split; [reflexivity|]. split; [etransitivity; eassumption|].
      split; [constructor; assumption|]. rewrite fmap_cons. simpl. lia.
Qed.
Lemma seqA_first {X L} (body : X -> heap -> res (heap * list L) -> Prop) x l h e : (exists r, body x h r) -> (forall r, body x h r -> r = Err e) ->
  (exists r, seqA body (x :: l) h r) /\ forall r, seqA body (x :: l) h r -> r = Err e.
Proof using Type.
  intros [r0 Hr0] Hall. pose proof (Hall r0 Hr0) as ->. split.
  - exists (Err e), (Err e). auto.
  - intros r (r1 & Hr1 & Hr). apply Hall in Hr1. subst r1. exact Hr.
Qed.
(** Every step of a loop that ends well ends well. *)
Lemma seqA_called {X L} (body : X -> heap -> res (heap * list L) -> Prop) l : forall h y x, seqA body l h (Ok y) -> x ∈ l -> exists h' z, body x h' (Ok z).
Proof using Type.
  induction l as [|x0 l IH]; intros h y x Hs Hx; [inversion Hx|]. destruct Hs as (r1 & Hr1 & Hr). destruct r1 as [[h1 ls]|e]; [|discriminate]. destruct Hr as (r2 & Hr2 & E).
  apply elem_of_cons in Hx as [->|Hx]; [eauto|]. destruct r2 as [z|e]; [|discriminate]. eapply IH; eauto.
Qed.
End Seq.
