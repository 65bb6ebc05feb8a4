(** C20: arbitrary operation sequences on the hash accumulator refine a finite map. *)
From stdpp Require Import gmap.
From Verif Require Import Base Spec BaseProofs HashModel HashTableProofs HashProofs.

(** The operations a kernel performs on the table (HashAccumulator.h: insert(key) 202-209,
    erase 115-137, find 106-109 followed by reading the entry, find followed by writing value1 and
    value2 as in MaskedHashAlgorithm.h:82-90, resetStates 98-100). *)
Inductive hop (V : Type) := OInsert (k : nat) | OErase (k : nat) | OFind (k : nat) | OStore (k : nat) (v : V) | OReset.
Arguments OInsert {V} k.
Arguments OErase {V} k.
Arguments OFind {V} k.
Arguments OStore {V} k v.
Arguments OReset {V}.

(** Answers.  [RLook None]: absent; [RLook (Some None)]: present without a value. *)
Inductive hans (V : Type) := RBool (b : bool) | RLook (r : option (option V)) | RUnit.
Arguments RBool {V} b.
Arguments RLook {V} r.
Arguments RUnit {V}.

Section Ops.
Context {V : Type} (w : N).

(** Run one operation on the modelled table. *)
Definition hexec (acc : hash V) (op : hop V) : res (hash V * hans V) :=
  match op with
  | OInsert k => '(acc', b) <- insertKey w acc k ;; Ok (acc', RBool b)
  | OErase k => '(acc', b) <- hErase w acc k ;; Ok (acc', RBool b)
  | OFind k =>
    r <- find w acc k ;;
    match r with
    | None => Ok (acc, RLook None)
    | Some idx =>
      e <- get (h_tab acc) idx ;;
      match hv2 e with
      | None => Err Uninit
      | Some false => Ok (acc, RLook (Some None))
      | Some true => match hv1 e with None => Err Uninit | Some v => Ok (acc, RLook (Some (Some v))) end
      end
    end
  | OStore k v =>
    r <- find w acc k ;;
    match r with
    | None => Ok (acc, RBool false)
    | Some idx =>
      e <- get (h_tab acc) idx ;;
      t <- set_ (h_tab acc) idx (mkHent (hk e) (Some v) (Some true)) ;;
      Ok (with_tab acc t, RBool true)
    end
  | OReset => acc' <- hResetStates acc ;; Ok (acc', RUnit)
  end.

Fixpoint hrun (acc : hash V) (ops : list (hop V)) : res (hash V * list (hans V)) :=
  match ops with
  | [] => Ok (acc, [])
  | op :: ops' =>
    '(acc', a) <- hexec acc op ;;
    '(acc'', l) <- hrun acc' ops' ;;
    Ok (acc'', a :: l)
  end.

(** Specification: the same operations on a finite map from keys to optional values. *)
Definition mexec (m : gmap nat (option V)) (op : hop V) : gmap nat (option V) * hans V :=
  match op with
  | OInsert k => match m !! k with Some _ => (m, RBool false) | None => (<[k:=None]> m, RBool true) end
  | OErase k => (delete k m, RBool (bool_decide (is_Some (m !! k))))
  | OFind k => (m, RLook (m !! k))
  | OStore k v => match m !! k with None => (m, RBool false) | Some _ => (<[k:=Some v]> m, RBool true) end
  | OReset => (∅, RUnit)
  end.

Fixpoint mrun (m : gmap nat (option V)) (ops : list (hop V)) : gmap nat (option V) * list (hans V) :=
  match ops with
  | [] => (m, [])
  | op :: ops' => let '(m', a) := mexec m op in let '(m'', l) := mrun m' ops' in (m'', a :: l)
  end.

(** The map never holds more than [n] keys. *)
Fixpoint bounded (n : nat) (m : gmap nat (option V)) (ops : list (hop V)) : Prop :=
  size m <= n /\ match ops with [] => True | op :: ops' => bounded n (fst (mexec m op)) ops' end.

(** The concrete payload of an abstract value. *)
Definition pay (p : option V * option bool) (a : option V) : Prop :=
  match a with None => snd p = Some false | Some v => p = (Some v, Some true) end.
Definition mrel (mc : gmap nat (option V * option bool)) (m : gmap nat (option V)) : Prop :=
  forall k, match m !! k with
            | None => mc !! k = None
            | Some a => exists p, mc !! k = Some p /\ pay p a
            end.

Lemma mrel_size mc m : mrel mc m -> size mc = size m.
Proof.
  intros H. rewrite <- !size_dom. f_equal. apply set_eq. intros k. rewrite !elem_of_dom. specialize (H k).
  destruct (m !! k) as [a|]; [destruct H as (p & -> & _); split; eauto|rewrite H; split; intros [? ?]; discriminate].
Qed.

Section Fixed.
Context (kk n : nat) (Hn : n < 2 ^ kk).

Lemma hexec_spec t mc m mx op : hrep w kk t mc -> mrel mc m -> size m <= n ->
  exists t' mc', hexec (mkHash t (2 ^ kk) mx []) op = Ok (mkHash t' (2 ^ kk) mx [], snd (mexec m op)) /\
    hrep w kk t' mc' /\ mrel mc' (fst (mexec m op)) /\ frame kk t t'.
Proof.
  intros Hr Hm Hs. pose proof (mrel_size _ _ Hm) as Hsz. assert (size mc < 2 ^ kk) as Hlt by lia.
  destruct op as [k|k|k|k v|]; cbn [hexec mexec].
  - destruct (insertKey_rep w kk t mc mx [] k Hr Hlt) as (t' & mc' & b & Hi & Hfr & Hr' & Hoth & Hkey).
    (* the returned flag *)
    assert (b = match mc !! k with Some _ => false | None => true end) as Hb.
    { destruct (findIdx_rep w kk t mc mx [] k Hr Hlt) as (idx & e & Hidx & _ & He & _ & Hc).
      unfold insertKey in Hi. rewrite Hidx, bind_Ok in Hi. cbn [h_tab] in Hi. rewrite (get_Some _ _ _ He), bind_Ok in Hi.
      destruct (mc !! k).
      - destruct Hc as [Hk _]. rewrite Hk in Hi. congruence.
      - destruct Hc as [Hk _]. rewrite Hk in Hi. rewrite set_Ok in Hi by (eapply lookup_lt_Some; eauto).
        rewrite bind_Ok in Hi. congruence. }
    rewrite Hi, bind_Ok. exists t', mc'. pose proof (Hm k) as Hmk.
    destruct (m !! k) as [a|] eqn:Emk.
    + destruct Hmk as (p & Hp & Hpay). rewrite Hp in Hb, Hkey. subst b. split; [reflexivity|].
      split; [exact Hr'|]. split; [|exact Hfr]. intros k'. cbn [fst]. specialize (Hm k').
      destruct (decide (k' = k)) as [->|Hne]; [rewrite Emk in *; rewrite Hkey; eauto|]. rewrite Hoth by exact Hne. exact Hm.
    + rewrite Hmk in Hb, Hkey. subst b. split; [reflexivity|]. split; [exact Hr'|]. split; [|exact Hfr].
      intros k'. cbn [fst]. specialize (Hm k'). destruct (decide (k' = k)) as [->|Hne].
      * rewrite lookup_insert. destruct Hkey as [v1 Hv1]. exists (v1, Some false). split; [exact Hv1|reflexivity].
      * rewrite lookup_insert_ne by auto. rewrite Hoth by exact Hne. exact Hm.
  - destruct (hErase_rep w kk t mc mx [] k Hr Hlt) as (t' & He & Hfr & Hr').
    rewrite He, bind_Ok. exists t', (delete k mc). split; [|split; [exact Hr'|split; [|exact Hfr]]].
    + cbn [snd]. do 3 f_equal. apply bool_decide_ext. specialize (Hm k).
      destruct (m !! k); [destruct Hm as (p & -> & _); split; eauto|rewrite Hm; split; intros [? ?]; discriminate].
    + intros k'. cbn [fst]. destruct (decide (k = k')) as [<-|Hne].
      * rewrite !lookup_delete. reflexivity.
      * rewrite !lookup_delete_ne by exact Hne. apply Hm.
  - pose proof (find_rep w kk t mc mx [] k Hr Hlt) as Hf. pose proof (Hm k) as Hmk. exists t, mc. cbn [fst snd].
    split; [|split; [exact Hr|split; [exact Hm|apply frame_refl]]].
    destruct (m !! k) as [a|].
    + destruct Hmk as (p & Hp & Hpay). rewrite Hp in Hf. destruct Hf as (idx & e & Hf & Hi & He & Hk & Hpe).
      rewrite Hf, bind_Ok. cbn [h_tab]. rewrite (get_Some _ _ _ He), bind_Ok. subst p. destruct a as [v|]; cbn in Hpay.
      * inversion Hpay as [[H1 H2]]. rewrite H1, H2. reflexivity.
      * rewrite Hpay. reflexivity.
    + rewrite Hmk in Hf. rewrite Hf, bind_Ok. reflexivity.
  - pose proof (find_rep w kk t mc mx [] k Hr Hlt) as Hf. pose proof (Hm k) as Hmk.
    destruct (m !! k) as [a|] eqn:Emk.
    + destruct Hmk as (p & Hp & Hpay). rewrite Hp in Hf. destruct Hf as (idx & e & Hf & Hi & He & Hk & Hpe).
      rewrite Hf, bind_Ok. cbn [h_tab]. rewrite (get_Some _ _ _ He), bind_Ok.
      rewrite set_Ok by (eapply lookup_lt_Some; eauto). rewrite bind_Ok.
      exists (<[idx:=mkHent (hk e) (Some v) (Some true)]> t), (<[k:=(Some v, Some true)]> mc).
      split; [reflexivity|]. split; [|split].
      * exact (hrep_overwrite w kk t mc k idx e (mkHent (hk e) (Some v) (Some true)) Hr He Hk Hk).
      * intros k'. cbn [fst]. destruct (decide (k = k')) as [<-|Hne].
        -- rewrite !lookup_insert. eexists. split; reflexivity.
        -- rewrite !lookup_insert_ne by exact Hne. apply Hm.
      * apply frame_insert; [apply frame_refl|exact Hi].
    + rewrite Hmk in Hf. rewrite Hf, bind_Ok. exists t, mc. split; [reflexivity|].
      split; [exact Hr|]. split; [exact Hm|apply frame_refl].
  - destruct Hr as [Hw _].
    destruct (hResetStates_spec kk t mx (tw_len _ _ _ _ Hw) (tw_out _ _ _ _ Hw)) as (t' & Ht' & Hfr & Hcl).
    rewrite Ht', bind_Ok. exists t', ∅. split; [reflexivity|]. split; [|split; [|exact Hfr]].
    + apply hrep_empty; [|exact Hcl]. destruct Hfr as [-> _]. apply (tw_len _ _ _ _ Hw).
    + intros k. cbn [fst]. rewrite !lookup_empty. reflexivity.
Qed.

Lemma hrun_spec ops : forall t mc m mx, hrep w kk t mc -> mrel mc m -> bounded n m ops ->
  exists t', hrun (mkHash t (2 ^ kk) mx []) ops = Ok (mkHash t' (2 ^ kk) mx [], snd (mrun m ops)) /\
    frame kk t t'.
Proof.
  induction ops as [|op ops IH]; intros t mc m mx Hr Hm Hb; cbn [hrun mrun].
  - exists t. split; [reflexivity|apply frame_refl].
  - destruct Hb as [Hs Hb]. destruct (hexec_spec t mc m mx op Hr Hm Hs) as (t' & mc' & He & Hr' & Hm' & Hfr).
    rewrite He, bind_Ok. destruct (mexec m op) as [m' a] eqn:Em. cbn [fst snd] in *.
    destruct (IH t' mc' m' mx Hr' Hm' Hb) as (t'' & Hrun & Hfr'). rewrite Hrun, bind_Ok.
    destruct (mrun m' ops) as [m'' l]. exists t''. split; [reflexivity|]. eapply frame_trans; eauto.
Qed.
End Fixed.

Theorem hash_refines_map (acc : hash V) capreq n ops :
  hash_clean acc -> fits w capreq -> adjustSize w capreq = Ok (length (h_tab acc)) -> n <= capreq ->
  bounded n ∅ ops ->
  exists acc1 acc2, resize w acc n = Ok acc1 /\ hrun acc1 ops = Ok (acc2, snd (mrun ∅ ops)) /\
    length (h_tab acc2) = length (h_tab acc).
Proof.
  intros Hcl Hf Hcap Hn Hb. destruct (resize_spec w acc n capreq Hf Hn Hcap) as (kk & Hres & Hlt & Hle).
  rewrite Hres. destruct Hcl as [Hk Hc]. rewrite Hk.
  destruct (hrun_spec kk n Hlt ops (h_tab acc) ∅ ∅ (Nat.max (h_max acc) (2 ^ kk))) as (t' & Hrun & [Hl _]).
  - apply hrep_empty; assumption.
  - intros k. rewrite !lookup_empty. reflexivity.
  - exact Hb.
  - do 2 eexists. split; [reflexivity|]. split; [exact Hrun|exact Hl].
Qed.
End Ops.
