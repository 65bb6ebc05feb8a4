(** Proofs about the atomic transpose. *)
From stdpp Require Import numbers.
From Verif Require Import TransModel MatSpec MatStatements ConvProofs SortProofs MatProofs ParProofs ConcProofs BaseProofs Assemble DriverBase ScanProofs.
From Verif Require Import Base Spec.

Lemma mjoin_take_one {X} (ts : list (X * list nat)) t o o' j js :
  ts !! t = Some (o, j :: js) -> mjoin (snd <$> ts) ≡ₚ j :: mjoin (snd <$> <[t := (o', js)]> ts).
Proof.
  revert t. induction ts as [|x ts IH]; intros [|t] Ht; [discriminate..| |].
  - injection Ht as ->. reflexivity.
  - simpl in Ht. change (<[S t := (o', js)]> (x :: ts)) with (x :: <[t := (o', js)]> ts). rewrite !fmap_cons, !mjoin_cons.
    rewrite (IH t Ht). symmetry. apply Permutation_middle.
Qed.

Lemma mjoin_same {X} (ts : list (X * list nat)) t o o' js :
  ts !! t = Some (o, js) -> snd <$> <[t := (o', js)]> ts = snd <$> ts.
Proof. intros Ht. rewrite list_fmap_insert. simpl. apply list_insert_id. rewrite list_lookup_fmap, Ht. reflexivity. Qed.

Section Fetch.
Context (ci : list nat) (n : nat).
Notation nz := (length ci).
Hypothesis Hci : forall j c, ci !! j = Some c -> c < n.
Definition colOf (j : nat) : nat := default 0 (ci !! j).

Fixpoint code (js : list nat) : aprog :=
  match js with
  | [] => ARet
  | j :: js' => AFadd (aCnt, colOf j) (fun v => AWr (aDloc, j) v (code js'))
  end.
Definition tstate : Type := option (nat * nat) * list nat.
Definition progOf (x : tstate) : aprog :=
  match fst x with None => code (snd x) | Some (j, v) => AWr (aDloc, j) v (code (snd x)) end.

Definition ofCol (G : list (nat * nat)) (c : nat) : list (nat * nat) := filter (fun x => colOf (fst x) = c) G.

Record inv (past : list nat) (ts : list tstate) (G : list (nat * nat)) (m : gmap loc nat) : Prop := {
  i_perm : (fst <$> G) ++ mjoin (snd <$> ts) ≡ₚ seq 0 nz;
  i_idx : forall c, snd <$> ofCol G c = seq 0 (length (ofCol G c));
  i_cnt : forall c, c < n -> m !! (aCnt, c) = Some (length (ofCol G c));
  i_past : forall i, n <= i -> m !! (aCnt, i) = past !! (i - n);
  i_done : forall j v, (j, v) ∈ G -> m !! (aDloc, j) = Some v \/ exists t js, ts !! t = Some (Some (j, v), js);
  i_fly : forall t j v js, ts !! t = Some (Some (j, v), js) -> (j, v) ∈ G;
  i_flyu : forall t t' j v v' js js', ts !! t = Some (Some (j, v), js) -> ts !! t' = Some (Some (j, v'), js') -> t' = t;
  i_dom : forall j, is_Some (m !! (aDloc, j)) <-> j < nz }.

Definition size (ts : list tstate) : nat := sum_list ((fun x : tstate => 2 * length (snd x) + match fst x with None => 0 | _ => 1 end) <$> ts).

Lemma size_insert ts t x y : ts !! t = Some x ->
  (2 * length (snd x) + match fst x with None => 0 | _ => 1 end) = S (2 * length (snd y) + match fst y with None => 0 | _ => 1 end) ->
  size ts = S (size (<[t := y]> ts)).
Proof.
  unfold size. revert t. induction ts as [|z ts IH]; intros [|t] Ht E; [discriminate..| |].
  - injection Ht as ->. rewrite fmap_cons. change (<[0 := y]> (x :: ts)) with (y :: ts). rewrite fmap_cons. cbn [sum_list]. rewrite E. reflexivity.
  - simpl in Ht. change (<[S t := y]> (z :: ts)) with (z :: <[t := y]> ts). rewrite !fmap_cons. cbn [sum_list]. rewrite (IH t Ht E). lia.
Qed.

Lemma ofCol_app G H c : ofCol (G ++ H) c = ofCol G c ++ ofCol H c.
Proof. apply filter_app. Qed.

Lemma inv_nodup past ts G m : inv past ts G m -> NoDup ((fst <$> G) ++ mjoin (snd <$> ts)).
Proof. intros I. rewrite (i_perm _ _ _ _ I). apply NoDup_seq. Qed.

Lemma inv_rem past ts G m t o j js : inv past ts G m -> ts !! t = Some (o, j :: js) -> j < nz /\ j ∉ (fst <$> G).
Proof.
  intros I Ht. assert (Hin : j ∈ mjoin (snd <$> ts)) by (rewrite (mjoin_take_one ts t o o j js Ht); left). split.
  - assert (H : j ∈ (fst <$> G) ++ mjoin (snd <$> ts)) by (apply elem_of_app; auto). rewrite (i_perm _ _ _ _ I) in H. apply elem_of_seq in H. lia.
  - intros HG. pose proof (inv_nodup _ _ _ _ I) as Hnd. apply NoDup_app in Hnd as (_ & Hd & _). exact (Hd j HG Hin).
Qed.

Lemma colOf_lt j : j < nz -> colOf j < n.
Proof. intros Hj. destruct (lookup_lt_is_Some_2 ci j Hj) as [c Hc]. unfold colOf. rewrite Hc. simpl. eapply Hci, Hc. Qed.

Lemma inv_fadd past ts G m t j js : inv past ts G m -> ts !! t = Some (None, j :: js) ->
  exists v, m !! (aCnt, colOf j) = Some v /\ inv past (<[t := (Some (j, v), js)]> ts) (G ++ [(j, v)]) (<[(aCnt, colOf j) := v + 1]> m).
Proof.
  intros I Ht. destruct (inv_rem _ _ _ _ _ _ _ _ I Ht) as [Hj HjG]. pose proof (colOf_lt j Hj) as Hc.
  set (v := length (ofCol G (colOf j))). exists v. split; [apply (i_cnt _ _ _ _ I), Hc|].
  pose proof (lookup_lt_Some _ _ _ Ht) as Htl.
  assert (Hone : forall c, ofCol [(j, v)] c = if decide (colOf j = c) then [(j, v)] else []).
  { intros c. unfold ofCol. rewrite filter_cons, filter_nil. simpl. reflexivity. }
  constructor.
  - rewrite fmap_app, <- app_assoc. rewrite <- (i_perm _ _ _ _ I). rewrite (mjoin_take_one ts t None (Some (j, v)) j js Ht). reflexivity.
  - intros c. rewrite ofCol_app, Hone, fmap_app, app_length, (i_idx _ _ _ _ I). destruct (decide (colOf j = c)) as [<-|].
    + simpl. rewrite seq_app. reflexivity.
    + simpl. rewrite app_nil_r, Nat.add_0_r. reflexivity.
  - intros c Hcn. rewrite ofCol_app, Hone, app_length. destruct (decide (colOf j = c)) as [<-|Hne].
    + rewrite lookup_insert. reflexivity.
    + rewrite lookup_insert_ne by congruence. simpl. rewrite Nat.add_0_r. apply (i_cnt _ _ _ _ I), Hcn.
  - intros i Hi. rewrite lookup_insert_ne by (intros [= ?]; lia). apply (i_past _ _ _ _ I), Hi.
  - intros j' v' Hin. apply elem_of_app in Hin as [Hin|Hin].
    + destruct (i_done _ _ _ _ I j' v' Hin) as [Hm|(t' & js' & Ht')].
      * left. rewrite lookup_insert_ne by discriminate. exact Hm.
      * right. exists t', js'. rewrite list_lookup_insert_ne; [exact Ht'|]. intros ->. congruence.
    + apply elem_of_list_singleton in Hin as [= -> ->]. right. exists t, js. apply list_lookup_insert, Htl.
  - intros t' j' v' js' Ht'. apply elem_of_app. destruct (decide (t = t')) as [<-|Hne].
    + rewrite list_lookup_insert in Ht' by exact Htl. injection Ht' as -> -> ->. right. left.
    + rewrite list_lookup_insert_ne in Ht' by exact Hne. left. eapply (i_fly _ _ _ _ I), Ht'.
  - intros t1 t2 j' v1 v2 js1 js2 H1 H2. destruct (decide (t = t1)) as [<-|H1'], (decide (t = t2)) as [<-|H2'].
    + reflexivity.
    + rewrite list_lookup_insert in H1 by exact Htl. rewrite list_lookup_insert_ne in H2 by exact H2'. injection H1 as <- <- <-.
      exfalso. apply HjG. apply elem_of_list_fmap. exists (j, v2). split; [reflexivity|]. eapply (i_fly _ _ _ _ I), H2.
    + rewrite list_lookup_insert in H2 by exact Htl. rewrite list_lookup_insert_ne in H1 by exact H1'. injection H2 as <- <- <-.
      exfalso. apply HjG. apply elem_of_list_fmap. exists (j, v1). split; [reflexivity|]. eapply (i_fly _ _ _ _ I), H1.
    + rewrite list_lookup_insert_ne in H1, H2 by assumption. eapply (i_flyu _ _ _ _ I); eauto.
  - intros j'. rewrite lookup_insert_ne by discriminate. apply (i_dom _ _ _ _ I).
Qed.

Lemma inv_wr past ts G m t j v js : inv past ts G m -> ts !! t = Some (Some (j, v), js) ->
  is_Some (m !! (aDloc, j)) /\ inv past (<[t := (None, js)]> ts) G (<[(aDloc, j) := v]> m).
Proof.
  intros I Ht. pose proof (lookup_lt_Some _ _ _ Ht) as Htl. pose proof (i_fly _ _ _ _ I _ _ _ _ Ht) as HG.
  assert (Hj : j < nz).
  { assert (H : j ∈ (fst <$> G) ++ mjoin (snd <$> ts)) by (apply elem_of_app; left; apply elem_of_list_fmap; exists (j, v); auto).
    rewrite (i_perm _ _ _ _ I) in H. apply elem_of_seq in H. lia. }
  assert (Huq : forall v', (j, v') ∈ G -> v' = v).
  { intros v' H'. pose proof (inv_nodup _ _ _ _ I) as Hnd. apply NoDup_app in Hnd as (Hnd & _ & _).
    apply elem_of_list_lookup in HG as [k Hk]. apply elem_of_list_lookup in H' as [k' Hk'].
    assert (k = k') as <- by (apply (NoDup_lookup _ k k' j Hnd); rewrite list_lookup_fmap, ?Hk, ?Hk'; reflexivity). congruence. }
  split; [apply (i_dom _ _ _ _ I), Hj|]. constructor.
  - assert (E : snd <$> <[t := (None, js)]> ts = snd <$> ts) by exact (mjoin_same ts t _ None js Ht). rewrite E. apply (i_perm _ _ _ _ I).
  - apply (i_idx _ _ _ _ I).
  - intros c Hc. rewrite lookup_insert_ne by discriminate. apply (i_cnt _ _ _ _ I), Hc.
  - intros i Hi. rewrite lookup_insert_ne by discriminate. apply (i_past _ _ _ _ I), Hi.
  - intros j' v' Hin. destruct (decide (j' = j)) as [->|Hne].
    + left. rewrite lookup_insert. f_equal. symmetry. apply Huq, Hin.
    + rewrite lookup_insert_ne by congruence. destruct (i_done _ _ _ _ I j' v' Hin) as [Hm|(t' & js' & Ht')]; [auto|].
      right. exists t', js'. rewrite list_lookup_insert_ne; [exact Ht'|]. intros ->. congruence.
  - intros t' j' v' js' Ht'. destruct (decide (t = t')) as [<-|Hne]; [rewrite list_lookup_insert in Ht' by exact Htl; discriminate|].
    rewrite list_lookup_insert_ne in Ht' by exact Hne. eapply (i_fly _ _ _ _ I), Ht'.
  - intros t1 t2 j' v1 v2 js1 js2 H1 H2.
    destruct (decide (t = t1)) as [<-|H1']; [rewrite list_lookup_insert in H1 by exact Htl; discriminate|].
    destruct (decide (t = t2)) as [<-|H2']; [rewrite list_lookup_insert in H2 by exact Htl; discriminate|].
    rewrite list_lookup_insert_ne in H1, H2 by assumption. eapply (i_flyu _ _ _ _ I); eauto.
  - intros j'. destruct (decide (j' = j)) as [->|Hne].
    + rewrite lookup_insert. split; [intros _; exact Hj|eauto].
    + rewrite lookup_insert_ne by congruence. apply (i_dom _ _ _ _ I).
Qed.

Definition cinv (past : list nat) (k : nat) (c : acfg) : Prop :=
  exists ts G, c.2 = progOf <$> ts /\ inv past ts G c.1 /\ size ts = k.

Lemma cinv_step past k c c' : cinv past k c -> astep c c' -> exists k', k = S k' /\ cinv past k' c'.
Proof.
  intros (ts & G & Hps & I & Hk) Hs. inversion Hs as [m ps t l kk v Hp Hm|m ps t l v kk Hp Hm]; subst c c'; simpl in *; subst ps;
    rewrite list_lookup_fmap in Hp; destruct (ts !! t) as [[o js]|] eqn:Ht; try discriminate; injection Hp as Hp.
  - destruct o as [[j w]|]; [discriminate|]. unfold progOf in Hp. simpl in Hp. destruct js as [|j js]; [discriminate|]. injection Hp as <- <-.
    destruct (inv_fadd _ _ _ _ _ _ _ I Ht) as (v' & Hv & I'). assert (v' = v) as -> by congruence.
    exists (size (<[t := (Some (j, v), js)]> ts)). split.
    + rewrite <- Hk. eapply size_insert; [exact Ht|]. simpl. lia.
    + eexists _, _. split; [|split; [exact I'|reflexivity]]. simpl. rewrite list_fmap_insert. reflexivity.
  - destruct o as [[j w]|]; [|unfold progOf in Hp; simpl in Hp; destruct js; discriminate]. unfold progOf in Hp. simpl in Hp. injection Hp as <- <- <-.
    destruct (inv_wr _ _ _ _ _ _ _ _ I Ht) as (_ & I').
    exists (size (<[t := (None, js)]> ts)). split.
    + rewrite <- Hk. eapply size_insert; [exact Ht|]. simpl. lia.
    + eexists _, _. split; [|split; [exact I'|reflexivity]]. simpl. rewrite list_fmap_insert. reflexivity.
Qed.

Lemma cinv_nofault past k c t p f : cinv past k c -> c.2 !! t = Some p -> ~ athread_fault c.1 p f.
Proof.
  intros (ts & G & Hps & I & Hk) Hp. rewrite Hps, list_lookup_fmap in Hp. destruct (ts !! t) as [[o js]|] eqn:Ht; [|discriminate].
  injection Hp as <-. destruct o as [[j v]|]; unfold progOf; simpl.
  - intros [Hm _]. destruct (inv_wr _ _ _ _ _ _ _ _ I Ht) as ([x Hx] & _). congruence.
  - destruct js as [|j js]; [intros []|]. simpl. intros [Hm _]. destruct (inv_fadd _ _ _ _ _ _ _ I Ht) as (v & Hv & _). congruence.
Qed.

Lemma cinv_norace past k c : cinv past k c -> ~ arace c.
Proof.
  intros (ts & G & Hps & I & Hk) (t & u & p & q & l & b1 & b2 & Htu & Hp & Hq & Hn1 & Hn2 & Hb).
  rewrite Hps, list_lookup_fmap in Hp, Hq.
  destruct (ts !! t) as [[o js]|] eqn:Ht; [|discriminate]. injection Hp as <-.
  destruct (ts !! u) as [[o' js']|] eqn:Hu; [|discriminate]. injection Hq as <-.
  destruct o as [[j v]|], o' as [[j' v']|]; unfold progOf in Hn1, Hn2; simpl in Hn1, Hn2.
  - injection Hn1 as <- <-. injection Hn2 as Ej <-. apply Htu. subst j'. symmetry. eapply (i_flyu _ _ _ _ I); [exact Ht|exact Hu].
  - injection Hn1 as <- <-. destruct js'; discriminate.
  - injection Hn2 as <- <-. destruct js; discriminate.
  - destruct js as [|j js], js' as [|j' js']; try discriminate. simpl in Hn1, Hn2. injection Hn1 as _ <-. injection Hn2 as _ <-. discriminate.
Qed.

Lemma cinv_rtc past k c c' : cinv past k c -> rtc astep c c' -> exists k', cinv past k' c'.
Proof.
  intros Hi Hr. revert k Hi. induction Hr as [|c c1 c2 Hs _ IH]; intros k Hi; [eauto|].
  destruct (cinv_step _ _ _ _ Hi Hs) as (k' & _ & Hi'). eauto.
Qed.
Lemma cinv_bound past k c : cinv past k c -> forall q c', nsteps astep q c c' -> q <= k.
Proof.
  intros Hi q. revert k c Hi. induction q as [|q IH]; intros k c Hi c' Hn; [lia|]. inversion Hn as [|? ? c1 ? Hs Hn']; subst.
  destruct (cinv_step _ _ _ _ Hi Hs) as (k' & -> & Hi'). specialize (IH k' c1 Hi' c' Hn'). lia.
Qed.

Lemma size_0 ts : size ts = 0 -> Forall (fun x : tstate => x = (None, [])) ts.
Proof.
  unfold size. induction ts as [|[o js] ts IH]; intros H; [constructor|]. rewrite fmap_cons in H. cbn [sum_list fst snd] in H. apply Nat.eq_add_0 in H as [H1 H2].
  unfold id in H1. constructor; [|apply IH; exact H2]. destruct o; [lia|]. destruct js; [reflexivity|simpl in H1; lia].
Qed.

Lemma fmap_look (ts : list tstate) (t : nat) (x : tstate) : ts !! t = Some x -> (progOf <$> ts) !! t = Some (progOf x).
Proof. intros H. rewrite list_lookup_fmap, H. reflexivity. Qed.

Lemma cinv_end past k c : cinv past k c -> exists m ps, rtc astep c (m, ps) /\ Forall (fun p => p = ARet) ps.
Proof.
  revert c. induction k as [|k IH]; intros [m ps] Hi.
  - exists m, ps. split; [reflexivity|]. destruct Hi as (ts & G & Hps & I & Hk). simpl in Hps. subst ps. apply size_0 in Hk.
    apply Forall_fmap. eapply Forall_impl; [exact Hk|]. intros x ->. reflexivity.
  - assert (Hst : exists c', astep (m, ps) c').
    { destruct Hi as (ts & G & Hps & I & Hk). simpl in Hps. subst ps.
      assert (Hx : exists t x, ts !! t = Some x /\ x <> (None, [])).
      { assert (Hd : Exists (fun x : tstate => x <> (None, [])) ts \/ Forall (fun x : tstate => x = (None, [])) ts).
        { clear. induction ts as [|[[y|] [|j js]] ts IHt].
          - right. constructor.
          - left. constructor. discriminate.
          - left. constructor. discriminate.
          - destruct IHt as [H|H]; [left; apply Exists_cons_tl, H|right; constructor; auto].
          - left. constructor. discriminate. }
        destruct Hd as [Hd|Hd].
        - apply Exists_exists in Hd as (x & Hx & Hne). apply elem_of_list_lookup in Hx as [t Ht]. eauto.
        - exfalso. assert (H0 : size ts = 0); [|lia]. clear Hk I. unfold size. induction Hd as [|x ts -> _ IHd]; [reflexivity|]. simpl. exact IHd. }
      destruct Hx as (t & [o js] & Ht & Hne). destruct o as [[j v]|].
      - destruct (inv_wr _ _ _ _ _ _ _ _ I Ht) as (Hm & _). eexists. eapply (astep_wr _ _ t); [|exact Hm]. exact (fmap_look ts t _ Ht).
      - destruct js as [|j js]; [congruence|]. destruct (inv_fadd _ _ _ _ _ _ _ I Ht) as (v & Hm & _). eexists. eapply (astep_fadd _ _ t); [|exact Hm].
        exact (fmap_look ts t _ Ht). }
    destruct Hst as [c' Hst]. destruct (cinv_step _ _ _ _ Hi Hst) as (k' & [= <-] & Hi'). destruct (IH c' Hi') as (m2 & ps2 & Hr & Hf).
    exists m2, ps2. split; [|exact Hf]. econstructor; eauto.
Qed.

(** What the first loop leaves behind. *)
Definition fetched (past : list nat) (G : list (nat * nat)) (m : gmap loc nat) : Prop :=
  (fst <$> G) ≡ₚ seq 0 nz /\
  (forall c, snd <$> ofCol G c = seq 0 (length (ofCol G c))) /\
  holds m aCnt (((fun c => length (ofCol G c)) <$> seq 0 n) ++ past) /\
  (forall j v, (j, v) ∈ G -> m !! (aDloc, j) = Some v) /\ (forall j, is_Some (m !! (aDloc, j)) <-> j < nz).

Lemma cinv_final past k m ps : cinv past k (m, ps) -> Forall (fun p => p = ARet) ps -> exists G, fetched past G m.
Proof.
  intros (ts & G & Hps & I & Hk) Hf. simpl in *. subst ps. exists G.
  assert (Hall : forall t x, ts !! t = Some x -> x = (None, [])).
  { intros t [o js] Ht. rewrite Forall_fmap in Hf. pose proof (Forall_lookup_1 _ _ _ _ Hf Ht) as Hx. unfold progOf in Hx. simpl in Hx.
    destruct o as [[j v]|]; [discriminate|]. destruct js; [reflexivity|discriminate]. }
  split; [|split; [|split; [|split]]].
  - pose proof (i_perm _ _ _ _ I) as Hp. replace (mjoin (snd <$> ts)) with (@nil nat) in Hp; [rewrite app_nil_r in Hp; exact Hp|].
    clear -Hall. induction ts as [|x ts IH]; [reflexivity|]. rewrite fmap_cons, mjoin_cons, <- IH by (intros t; apply (Hall (S t))).
    rewrite (Hall 0 x eq_refl). reflexivity.
  - apply (i_idx _ _ _ _ I).
  - intros i. destruct (Nat.lt_ge_cases i n) as [Hi|Hi].
    + rewrite lookup_app_l by (rewrite fmap_length, seq_length; exact Hi). rewrite seq_fmap_lookup by exact Hi. symmetry. apply (i_cnt _ _ _ _ I), Hi.
    + rewrite lookup_app_r by (rewrite fmap_length, seq_length; exact Hi). rewrite fmap_length, seq_length. symmetry. apply (i_past _ _ _ _ I), Hi.
  - intros j v Hin. destruct (i_done _ _ _ _ I j v Hin) as [H|(t & js & Ht)]; [exact H|]. apply Hall in Ht. discriminate.
  - apply (i_dom _ _ _ _ I).
Qed.
End Fetch.

Section Trans.
Context {V : Type} (A : csr V).
Hypothesis Hw : wf A.
Notation n := (cols A).
Notation ci := (colids A).

Definition rowJs (i : nat) : list nat := seq (pre (row_entries A) i) (length (row_entries A i)).

Lemma fetchRow_code k j rest js : j + k <= length ci -> rest = code ci js -> fetchRow ci k j rest = code ci (seq j k ++ js).
Proof.
  revert j. induction k as [|k IH]; intros j Hj E; [exact E|]. simpl. destruct (lookup_lt_is_Some_2 ci j) as [c Hc]; [lia|].
  rewrite (get_Some _ _ _ Hc). unfold colOf. rewrite Hc. simpl. rewrite IH by (auto; lia). reflexivity.
Qed.

Lemma row_ptrs i : i < rows A -> rowptr A !! i = Some (pre (row_entries A) i) /\ rowptr A !! (i + 1) = Some (pre (row_entries A) i + length (row_entries A i)).
Proof. intros Hi. split; [apply wf_pre; auto; lia|]. rewrite Nat.add_1_r, (wf_pre A (S i) Hw) by lia. rewrite pre_S. reflexivity. Qed.

Lemma pre_all : pre (row_entries A) (rows A) = nnz A.
Proof. pose proof (wf_pre A (rows A) Hw ltac:(lia)) as Hn. rewrite (wf_last _ Hw) in Hn. congruence. Qed.
Lemma pre_bound i : i < rows A -> pre (row_entries A) i + length (row_entries A i) <= nnz A.
Proof. intros Hi. pose proof (pre_le (row_entries A) (S i) (rows A) ltac:(lia)) as H. rewrite pre_S, pre_all in H. exact H. Qed.

Lemma fetchRows_code its : Forall (fun i => i < rows A) its -> fetchRows A its = code ci (mjoin (rowJs <$> its)).
Proof.
  induction 1 as [|i its Hi _ IH]; [reflexivity|]. simpl. destruct (row_ptrs i Hi) as [H1 H2].
  rewrite (get_Some _ _ _ H1), bind_Ok, (get_Some _ _ _ H2), bind_Ok.
  rewrite (fetchRow_code _ _ _ (mjoin (rowJs <$> its))); [|pose proof (pre_bound i Hi); rewrite (wf_colids _ Hw); lia|exact IH].
  unfold rowJs at 2. rewrite Nat.add_comm, Nat.add_sub. reflexivity.
Qed.

Lemma rowJs_all k : mjoin (rowJs <$> seq 0 k) = seq 0 (pre (row_entries A) k).
Proof.
  induction k as [|k IH]; [reflexivity|]. rewrite seq_S, fmap_app, mjoin_app, IH, pre_S, seq_app. simpl. rewrite app_nil_r. reflexivity.
Qed.

Lemma mjoin_fmap_perm {X Y} (f : X -> list Y) l l' : l ≡ₚ l' -> mjoin (f <$> l) ≡ₚ mjoin (f <$> l').
Proof.
  induction 1; rewrite ?fmap_cons, ?mjoin_cons; [reflexivity| | |].
  - f_equiv. assumption.
  - rewrite !app_assoc. f_equiv. apply Permutation_app_comm.
  - etransitivity; eauto.
Qed.
Lemma mjoin_mjoin {X Y} (f : X -> list Y) (ll : list (list X)) : mjoin (f <$> mjoin ll) = mjoin ((fun l => mjoin (f <$> l)) <$> ll).
Proof. induction ll as [|l ll IH]; [reflexivity|]. rewrite mjoin_cons, fmap_app, mjoin_app, fmap_cons, mjoin_cons, IH. reflexivity. Qed.

Lemma sched_lt asg : schedule (rows A) asg -> Forall (Forall (fun i => i < rows A)) asg.
Proof.
  intros Hs. apply Forall_forall. intros its Hin. apply Forall_forall. intros i Hi.
  assert (H : i ∈ mjoin asg) by (apply elem_of_list_join; eauto). unfold schedule in Hs. rewrite Hs in H. apply elem_of_seq in H. lia.
Qed.

Lemma fetch_start past asg : schedule (rows A) asg -> exists k, cinv ci n past k (fetchMem past A, fetchRows A <$> asg).
Proof.
  intros Hs. pose (ts := (fun its => (@None (nat * nat), mjoin (rowJs <$> its))) <$> asg).
  exists (size ts). exists ts, []. split; [|split; [|reflexivity]].
  - simpl. unfold ts. rewrite <- list_fmap_compose. apply list_fmap_ext. intros t its Ht. simpl.
    rewrite fetchRows_code by (eapply Forall_lookup_1; [apply sched_lt, Hs|exact Ht]). reflexivity.
  - simpl. assert (Hmem : forall a i, fetchMem past A !! (a, i) = if decide (a = aCnt) then (replicate n 0 ++ past) !! i else if decide (a = aDloc) then replicate (nnz A) 0 !! i else None).
    { intros a i. unfold fetchMem. rewrite lookup_union, !cells_lookup. destruct (decide (a = aCnt)) as [->|].
      - simpl. destruct ((replicate n 0 ++ past) !! i); reflexivity.
      - destruct (decide (a = aDloc)) as [->|]; [simpl; destruct (replicate (nnz A) 0 !! i); reflexivity|reflexivity]. }
    constructor.
    + assert (E : mjoin (snd <$> ts) = mjoin (rowJs <$> mjoin asg)).
      { rewrite mjoin_mjoin. f_equal. unfold ts. rewrite <- list_fmap_compose. reflexivity. }
      change (mjoin (snd <$> ts) ≡ₚ seq 0 (length ci)). rewrite E. unfold schedule in Hs. rewrite (mjoin_fmap_perm rowJs _ _ Hs).
      rewrite rowJs_all, pre_all, (wf_colids _ Hw). reflexivity.
    + reflexivity.
    + intros c Hc. rewrite Hmem. simpl. rewrite lookup_app_l by (rewrite replicate_length; exact Hc). apply lookup_replicate_2, Hc.
    + intros i Hi. rewrite Hmem. simpl. rewrite lookup_app_r by (rewrite replicate_length; exact Hi). rewrite replicate_length. reflexivity.
    + intros j v Hin. inversion Hin.
    + intros t j v js Ht. unfold ts in Ht. rewrite list_lookup_fmap in Ht. destruct (asg !! t); discriminate.
    + intros t t' j v v' js js' Ht. unfold ts in Ht. rewrite list_lookup_fmap in Ht. destruct (asg !! t); discriminate.
    + intros j. rewrite Hmem. simpl. rewrite lookup_lt_is_Some, replicate_length, (wf_colids _ Hw). reflexivity.
Qed.

Lemma ci_lt j c : ci !! j = Some c -> c < n.
Proof. apply (wf_range _ Hw). Qed.

Lemma fetch_outcome past asg o : schedule (rows A) asg -> aoutcome (fetchMem past A, fetchRows A <$> asg) o ->
  exists m G, o = Ok m /\ fetched ci n past G m.
Proof.
  intros Hs Ho. destruct (fetch_start past asg Hs) as [k Hi]. destruct Ho as [m ps t p f Hr Hp Hf|m ps Hr Hf].
  - exfalso. destruct (cinv_rtc ci n ci_lt _ _ _ _ Hi Hr) as [k' Hi']. exact (cinv_nofault ci n ci_lt _ _ _ t p f Hi' Hp Hf).
  - destruct (cinv_rtc ci n ci_lt _ _ _ _ Hi Hr) as [k' Hi']. destruct (cinv_final ci n _ _ _ _ Hi' Hf) as [G HG]. eauto.
Qed.
Lemma fetch_exists past asg : schedule (rows A) asg -> exists m, aoutcome (fetchMem past A, fetchRows A <$> asg) (Ok m).
Proof.
  intros Hs. destruct (fetch_start past asg Hs) as [k Hi]. destruct (cinv_end ci n ci_lt _ _ _ Hi) as (m & ps & Hr & Hf).
  exists m. econstructor; eauto.
Qed.
Lemma fetch_ends past asg : schedule (rows A) asg ->
  (exists b, forall k c', nsteps astep k (fetchMem past A, fetchRows A <$> asg) c' -> k <= b) /\
  (forall c', rtc astep (fetchMem past A, fetchRows A <$> asg) c' -> ~ arace c').
Proof.
  intros Hs. destruct (fetch_start past asg Hs) as [k Hi]. split; [exists k; apply (cinv_bound ci n ci_lt _ _ _ Hi)|].
  intros c' Hr. destruct (cinv_rtc ci n ci_lt _ _ _ _ Hi Hr) as [k' Hi']. exact (cinv_norace ci n _ _ _ Hi').
Qed.

(** The pointers. *)
Lemma colPtr_ok (f : nat -> nat) past cp : 1 <= length past -> n + 2 <= length cp ->
  exists cp', colPtrLoop n ((f <$> seq 0 n) ++ past) cp = Ok cp' /\ length cp' = length cp /\ forall i, i <= n -> cp' !! i = Some (MatProofs.psum f i).
Proof.
  intros Hp Hc. unfold colPtrLoop. rewrite set_Ok by lia. rewrite bind_Ok.
  destruct (for_inv (fun k (s : list nat) => length s = length cp /\ forall i, i <= k -> i <= n -> s !! i = Some (MatProofs.psum f i))
    (fun i cp => a <- get ((f <$> seq 0 n) ++ past) i ;; p <- get cp i ;; set_ cp (i + 1) (a + p)) 0 (n + 1) (<[0 := 0]> cp)) as (s & -> & Hl & Hs).
  - lia.
  - split; [apply insert_length|]. intros i Hi _. assert (i = 0) as -> by lia. rewrite list_lookup_insert by lia. reflexivity.
  - intros i s Hi [Hl Hs].
    assert (Ha : exists a, ((f <$> seq 0 n) ++ past) !! i = Some a /\ (i < n -> a = f i)).
    { destruct (Nat.lt_ge_cases i n) as [Hin|Hin].
      - exists (f i). split; [|auto]. rewrite lookup_app_l by (rewrite seq_fmap_length; lia). apply seq_fmap_lookup, Hin.
      - destruct (lookup_lt_is_Some_2 ((f <$> seq 0 n) ++ past) i) as [a Ha]; [rewrite app_length, seq_fmap_length; lia|]. exists a. split; [exact Ha|lia]. }
    destruct Ha as (a & Ha & Haf). rewrite (get_Some _ _ _ Ha), bind_Ok. rewrite (get_Some _ _ _ (Hs i ltac:(lia) ltac:(lia))), bind_Ok.
    rewrite set_Ok by lia. eexists. split; [reflexivity|]. split; [rewrite insert_length; exact Hl|].
    intros q Hq Hqn. destruct (decide (q = i + 1)) as [->|Hne].
    + rewrite list_lookup_insert by lia. rewrite (Nat.add_1_r i), MatProofs.psum_S, Haf by lia. f_equal. lia.
    + rewrite list_lookup_insert_ne by lia. apply Hs; lia.
  - exists s. split; [reflexivity|]. split; [exact Hl|]. intros i Hi. apply Hs; lia.
Qed.

Lemma colPtr_fails (f : nat -> nat) cp : colPtrLoop n (f <$> seq 0 n) cp = Err OutOfBounds.
Proof.
  unfold colPtrLoop. destruct (decide (length cp = 0)) as [H0|H0].
  { destruct cp; [reflexivity|discriminate]. }
  rewrite set_Ok by lia. rewrite bind_Ok.
  assert (Hf : forall k lo s, length s = length cp -> lo + k = n + 1 -> 1 <= k ->
    for_n k lo (fun i cp => a <- get (f <$> seq 0 n) i ;; p <- get cp i ;; set_ cp (i + 1) (a + p)) s = Err OutOfBounds).
  { induction k as [|k IH]; intros lo s Hl Hk H1; [lia|]. cbn [for_n].
    destruct (Nat.lt_ge_cases lo n) as [Hlo|Hlo].
    - rewrite (get_Some _ _ (f lo)) by (apply seq_fmap_lookup, Hlo). rewrite bind_Ok.
      unfold get at 1. destruct (s !! lo) as [p|] eqn:Ep; [|reflexivity]. rewrite bind_Ok.
      unfold set_ at 1. destruct (Nat.ltb_spec (lo + 1) (length s)) as [Hs|Hs]; [|reflexivity]. rewrite bind_Ok. apply IH; [rewrite insert_length; exact Hl|lia|lia].
    - unfold get at 1. rewrite lookup_ge_None_2 by (rewrite seq_fmap_length; lia). reflexivity. }
  unfold for_. apply Hf; [apply insert_length|lia|lia].
Qed.
End Trans.
