(** Counting walks and shortest paths. *)
From Coq Require Import Field QArith.Qcanon.
From stdpp Require Import numbers list_numbers.
From Verif Require Import BaseProofs ConcProofs Assemble BcSpec.
From Verif Require Import Base Spec.

(** ** Sums *)
Definition sumN (l : list nat) (f : nat -> nat) : nat := sum_list (f <$> l).
Lemma sumN_cons x l f : sumN (x :: l) f = f x + sumN l f.
Proof. reflexivity. Qed.
Lemma sumN_ext l f g : (forall x, x ∈ l -> f x = g x) -> sumN l f = sumN l g.
Proof.
  induction l as [|x l IH]; intros H; [reflexivity|]. rewrite !sumN_cons, (H x) by left. rewrite IH; [reflexivity|]. intros; apply H; right; assumption.
Qed.
Lemma sumN_0 l f : (forall x, x ∈ l -> f x = 0) -> sumN l f = 0.
Proof. intros H. rewrite (sumN_ext l f (fun _ => 0) H). induction l as [|x l IH]; [reflexivity|]. rewrite sumN_cons, IH; [reflexivity|]. intros; apply H; right; assumption. Qed.
Lemma sumN_0_inv l f x : sumN l f = 0 -> x ∈ l -> f x = 0.
Proof. induction l as [|y l IH]; intros H Hx; [inversion Hx|]. rewrite sumN_cons in H. apply elem_of_cons in Hx as [->|Hx]; [lia|apply IH; [lia|exact Hx]]. Qed.
Lemma sumN_one l f x : NoDup l -> x ∈ l -> (forall y, y ∈ l -> y <> x -> f y = 0) -> sumN l f = f x.
Proof.
  induction l as [|y l IH]; intros Hn Hx H0; [inversion Hx|]. inversion Hn as [|? ? Hy Hn']; subst. rewrite sumN_cons. apply elem_of_cons in Hx as [->|Hx].
  - rewrite (sumN_0 l f); [lia|]. intros z Hz. apply H0; [right; exact Hz|congruence].
  - rewrite (H0 y); [|left|congruence]. apply IH; [exact Hn'|exact Hx|]. intros z Hz. apply H0. right; exact Hz.
Qed.
Lemma sumN_add l f g : sumN l (fun x => f x + g x) = sumN l f + sumN l g.
Proof. induction l as [|x l IH]; [reflexivity|]. rewrite !sumN_cons, IH. lia. Qed.
Lemma sumN_mul l f c : sumN l (fun x => f x * c) = sumN l f * c.
Proof. induction l as [|x l IH]; [reflexivity|]. rewrite !sumN_cons, IH. lia. Qed.
Lemma sumN_swap l k (f : nat -> nat -> nat) : sumN l (fun x => sumN k (f x)) = sumN k (fun y => sumN l (fun x => f x y)).
Proof.
  induction l as [|x l IH]; [symmetry; apply sumN_0; reflexivity|]. rewrite sumN_cons, IH, <- sumN_add. apply sumN_ext. intros y _. rewrite sumN_cons. reflexivity.
Qed.

Definition sumQ (l : list nat) (f : nat -> Qc) : Qc := sumQc (f <$> l).
Lemma sumQ_cons x l f : sumQ (x :: l) f = (f x + sumQ l f)%Qc.
Proof. reflexivity. Qed.
Lemma sumQ_ext l f g : (forall x, x ∈ l -> f x = g x) -> sumQ l f = sumQ l g.
Proof. induction l as [|x l IH]; intros H; [reflexivity|]. rewrite !sumQ_cons, (H x) by left. rewrite IH; [reflexivity|]. intros; apply H; right; assumption. Qed.
Lemma sumQ_0 l f : (forall x, x ∈ l -> f x = 0%Qc) -> sumQ l f = 0%Qc.
Proof. induction l as [|x l IH]; intros H; [reflexivity|]. rewrite sumQ_cons, (H x) by left. rewrite IH; [ring|]. intros; apply H; right; assumption. Qed.
Lemma sumQ_one l f x : NoDup l -> x ∈ l -> (forall y, y ∈ l -> y <> x -> f y = 0%Qc) -> sumQ l f = f x.
Proof.
  induction l as [|y l IH]; intros Hn Hx H0; [inversion Hx|]. inversion Hn as [|? ? Hy Hn']; subst. rewrite sumQ_cons. apply elem_of_cons in Hx as [->|Hx].
  - rewrite (sumQ_0 l f); [ring|]. intros z Hz. apply H0; [right; exact Hz|congruence].
  - rewrite (H0 y); [|left|congruence]. rewrite IH; [ring|exact Hn'|exact Hx|]. intros z Hz. apply H0. right; exact Hz.
Qed.
Lemma sumQ_add l f g : sumQ l (fun x => f x + g x)%Qc = (sumQ l f + sumQ l g)%Qc.
Proof. induction l as [|x l IH]; [reflexivity|]. rewrite !sumQ_cons, IH. ring. Qed.
Lemma sumQ_mul l f c : sumQ l (fun x => f x * c)%Qc = (sumQ l f * c)%Qc.
Proof. induction l as [|x l IH]; [unfold sumQ; cbn; ring|]. rewrite !sumQ_cons, IH. ring. Qed.
Lemma sumQ_swap l k (f : nat -> nat -> Qc) : sumQ l (fun x => sumQ k (f x)) = sumQ k (fun y => sumQ l (fun x => f x y)).
Proof.
  induction l as [|x l IH]; [symmetry; apply sumQ_0; reflexivity|]. rewrite sumQ_cons, IH, <- sumQ_add. apply sumQ_ext. intros y _. rewrite sumQ_cons. reflexivity.
Qed.
Lemma QN_add a b : Qc_of_nat (a + b) = (Qc_of_nat a + Qc_of_nat b)%Qc.
Proof. unfold Qc_of_nat. rewrite Nat2Z.inj_add, Z2Qc_inj_add. reflexivity. Qed.
Lemma QN_mul a b : Qc_of_nat (a * b) = (Qc_of_nat a * Qc_of_nat b)%Qc.
Proof. unfold Qc_of_nat. rewrite Nat2Z.inj_mul, Z2Qc_inj_mul. reflexivity. Qed.
Lemma QN_0 a : Qc_of_nat a = 0%Qc <-> a = 0.
Proof. unfold Qc_of_nat. rewrite <- Z2Qc_inj_0, Z2Qc_inj_iff. lia. Qed.
Lemma QN_sum l f : Qc_of_nat (sumN l f) = sumQ l (fun x => Qc_of_nat (f x)).
Proof. induction l as [|x l IH]; [apply QN_0; reflexivity|]. rewrite sumN_cons, sumQ_cons, QN_add, IH. reflexivity. Qed.

(** ** Walks *)
Section W.
Context (n : nat) (e : nat -> nat -> bool) (He : forall u v, e u v = true -> u < n /\ v < n).
Notation E := (fun u v => e u v = true).

(** The walks of [k] edges from [s] to [t]. *)
Fixpoint ws (k s t : nat) : list (list nat) :=
  match k with
  | 0 => if decide (s = t) then [[s]] else []
  | S k => mjoin ((fun u => if e s u then (cons s) <$> ws k u t else []) <$> seq 0 n)
  end.
Definition wc (k s t : nat) : nat := length (ws k s t).

Lemma ws_elem k s t l : l ∈ ws k s t <-> walk E s t l /\ length l = S k.
Proof.
  revert s l. induction k as [|k IH]; intros s l; cbn [ws].
  - destruct (decide (s = t)) as [->|Hne].
    + rewrite elem_of_list_singleton. split; [intros ->; split; [constructor|reflexivity]|]. intros [H HL]. destruct H as [s|s u t l H H']; [reflexivity|].
      cbn in HL. destruct H'; cbn in HL; lia.
    + split; [intros H; inversion H|]. intros [H HL]. destruct H as [s|s u t l H H']; [contradiction|]. cbn in HL. destruct H'; cbn in HL; lia.
  - rewrite elem_of_list_join. split.
    + intros (ll & Hl & Hll). apply elem_of_list_fmap in Hll as (u & -> & Hu). destruct (e s u) eqn:Eu; [|inversion Hl]. apply elem_of_list_fmap in Hl as (l' & -> & Hl').
      apply IH in Hl' as [H1 H2]. split; [econstructor; eauto|cbn; congruence].
    + intros [H HL]. destruct H as [s|s u t l H H']; [cbn in HL; lia|]. exists ((cons s) <$> ws k u t). split.
      * apply elem_of_list_fmap. exists l. split; [reflexivity|]. apply IH. split; [exact H'|cbn in HL; lia].
      * apply elem_of_list_fmap. exists u. rewrite H. split; [reflexivity|]. apply elem_of_seq. apply He in H. lia.
Qed.

Lemma NoDup_mjoin {X} (ll : list (list X)) : (forall l, l ∈ ll -> NoDup l) ->
  (forall i j l k x, ll !! i = Some l -> ll !! j = Some k -> x ∈ l -> x ∈ k -> i = j) -> NoDup (mjoin ll).
Proof.
  induction ll as [|l ll IH]; intros H1 H2; [constructor|]. rewrite mjoin_cons. apply NoDup_app. split; [apply H1; left|]. split.
  - intros x Hx Hj. apply elem_of_list_join in Hj as (k & Hk & Hin). apply elem_of_list_lookup in Hin as [j Hj]. specialize (H2 0 (S j) l k x eq_refl Hj Hx Hk). lia.
  - apply IH; [intros k Hk; apply H1; right; exact Hk|]. intros i j a b x Ha Hb Hxa Hxb. specialize (H2 (S i) (S j) a b x Ha Hb Hxa Hxb). lia.
Qed.

Lemma ws_nodup k s t : NoDup (ws k s t).
Proof.
  revert s. induction k as [|k IH]; intros s; cbn [ws]; [destruct (decide _); [apply NoDup_singleton|constructor]|].
  apply NoDup_mjoin.
  - intros l Hl. apply elem_of_list_fmap in Hl as (u & -> & _). destruct (e s u); [|constructor]. apply NoDup_fmap_2; [intros a b [= ->]; reflexivity|apply IH].
  - intros i j a b x Ha Hb Hxa Hxb. apply list_lookup_fmap_inv in Ha as (u & -> & Hu). apply list_lookup_fmap_inv in Hb as (v & -> & Hv).
    apply lookup_seq in Hu as [-> _], Hv as [-> _].
    destruct (e s (0 + i)); [|inversion Hxa]. destruct (e s (0 + j)); [|inversion Hxb]. apply elem_of_list_fmap in Hxa as (p & -> & Hp). apply elem_of_list_fmap in Hxb as (q & [= ->] & Hq).
    apply ws_elem in Hp as [Hp _], Hq as [Hq _]. assert (Hh : forall a b l, walk E a b l -> head l = Some a) by (intros ? ? ? []; reflexivity). apply Hh in Hp, Hq. rewrite Hp in Hq. injection Hq as Hq. lia.
Qed.

Lemma wc_S k s t : wc (S k) s t = sumN (seq 0 n) (fun u => if e s u then wc k u t else 0).
Proof.
  unfold wc. cbn [ws]. rewrite mjoin_length, <- list_fmap_compose. unfold sumN. f_equal. apply list_fmap_ext. intros i u _. cbn. destruct (e s u); [apply fmap_length|reflexivity].
Qed.
Lemma wc_0 s t : wc 0 s t = if decide (s = t) then 1 else 0.
Proof. unfold wc. cbn. destruct (decide _); reflexivity. Qed.

Lemma wc_add a b s t : s < n -> wc (a + b) s t = sumN (seq 0 n) (fun u => wc a s u * wc b u t).
Proof.
  revert s. induction a as [|a IH]; intros s Hs.
  - rewrite (sumN_one _ _ s); [rewrite wc_0, decide_True by reflexivity; cbn [Nat.add]; lia|apply NoDup_seq|apply elem_of_seq; lia|].
    intros y _ Hy. rewrite wc_0, decide_False by congruence. reflexivity.
  - cbn [Nat.add]. rewrite wc_S. transitivity (sumN (seq 0 n) (fun x => sumN (seq 0 n) (fun u => (if e s x then wc a x u else 0) * wc b u t))).
    + apply sumN_ext. intros x _. destruct (e s x) eqn:Ex; [apply IH; apply He in Ex; lia|]. symmetry. apply sumN_0. reflexivity.
    + rewrite sumN_swap. apply sumN_ext. intros u _. rewrite sumN_mul, <- wc_S. reflexivity.
Qed.
Lemma wc_1 u t : wc 1 u t = if e u t then 1 else 0.
Proof.
  rewrite wc_S. destruct (e u t) eqn:Eu.
  - rewrite (sumN_one _ _ t); [rewrite Eu, wc_0, decide_True by reflexivity; reflexivity|apply NoDup_seq|apply elem_of_seq; apply He in Eu; lia|].
    intros y _ Hy. destruct (e u y); [|reflexivity]. rewrite wc_0, decide_False by congruence. reflexivity.
  - apply sumN_0. intros y _. destruct (e u y) eqn:Ey; [|reflexivity]. rewrite wc_0. destruct (decide (y = t)); congruence.
Qed.
Lemma wc_last k s t : s < n -> wc (S k) s t = sumN (seq 0 n) (fun u => if e u t then wc k s u else 0).
Proof.
  intros Hs. rewrite <- Nat.add_1_r, wc_add by exact Hs. apply sumN_ext. intros u _. rewrite wc_1. destruct (e u t); lia.
Qed.

Lemma wc_walk k s t : wc k s t <> 0 <-> exists l, walk E s t l /\ length l = S k.
Proof.
  unfold wc. split.
  - intros H. destruct (ws k s t) as [|l ls] eqn:El; [contradiction|]. exists l. apply ws_elem. rewrite El. left.
  - intros (l & Hl). apply ws_elem in Hl. destruct (ws k s t); [inversion Hl|discriminate].
Qed.
Lemma wc_trans a b s v t : wc a s v <> 0 -> wc b v t <> 0 -> s < n -> v < n -> wc (a + b) s t <> 0.
Proof.
  intros H1 H2 Hs Hv H. rewrite wc_add in H by exact Hs. apply (sumN_0_inv _ _ v) in H; [|apply elem_of_seq; lia]. apply Nat.eq_mul_0 in H. tauto.
Qed.
Lemma wc_range k s t : s < n -> wc k s t <> 0 -> t < n.
Proof.
  intros Hs. revert s Hs. induction k as [|k IH]; intros s Hs H; [rewrite wc_0 in H; destruct (decide (s = t)) as [->|]; [exact Hs|contradiction]|].
  rewrite wc_last in H by exact Hs. destruct (decide (t < n)) as [|Hge]; [assumption|]. exfalso. apply H, sumN_0. intros u _. destruct (e u t) eqn:Eu; [|reflexivity]. apply He in Eu. lia.
Qed.

(** ** Distances *)
Definition isd (s t d : nat) : Prop := wc d s t <> 0 /\ forall d', d' < d -> wc d' s t = 0.
Lemma isd_unique s t d d' : isd s t d -> isd s t d' -> d = d'.
Proof. intros [H1 H2] [H3 H4]. destruct (Nat.lt_trichotomy d d') as [L|[L|L]]; [specialize (H4 d L)|exact L|specialize (H2 d' L)]; contradiction. Qed.
Lemma isd_ex k s t : wc k s t <> 0 -> exists d, d <= k /\ isd s t d.
Proof.
  intros H. induction k as [k IH] using lt_wf_ind. destruct (decide (Forall (fun d' => wc d' s t = 0) (seq 0 k))) as [Hf|Hf].
  - exists k. split; [lia|]. split; [exact H|]. intros d' Hd. rewrite Forall_forall in Hf. apply Hf, elem_of_seq. lia.
  - apply not_Forall_Exists in Hf; [|intros ?; apply _]. apply Exists_exists in Hf as (d' & Hd & Hn). apply elem_of_seq in Hd. destruct (IH d' ltac:(lia) Hn) as (d & H1 & H2). exists d. split; [lia|exact H2].
Qed.

Lemma walk_cut s t l i v : walk E s t l -> l !! i = Some v -> walk E s v (take (S i) l) /\ walk E v t (drop i l).
Proof.
  intros H. revert i. induction H as [s|s u t l H H' IH]; intros i Hi.
  - destruct i; [|discriminate]. injection Hi as ->. split; constructor.
  - destruct i as [|i]; [injection Hi as ->; split; [constructor|econstructor; eauto]|]. destruct (IH i Hi) as [H1 H2]. split; [|exact H2].
    change (walk E s v (s :: take (S i) l)). econstructor; eauto.
Qed.
Lemma walk_range s t l : s < n -> walk E s t l -> forall v, v ∈ l -> v < n.
Proof.
  intros Hs H. induction H as [s|s u t l H H' IH]; intros v Hv; [apply elem_of_list_singleton in Hv as ->; exact Hs|].
  apply elem_of_cons in Hv as [->|Hv]; [exact Hs|]. apply IH; [apply He in H; lia|exact Hv].
Qed.
Lemma walk_start s t l : walk E s t l -> l !! 0 = Some s.
Proof. intros []; reflexivity. Qed.
Lemma walk_join s v t p q : walk E s v p -> walk E v t q -> walk E s t (p ++ tail q).
Proof.
  intros H Hq. induction H as [s|s u v l H H' IH]; [destruct Hq; cbn [tail app]; econstructor; eauto|]. cbn [app]. econstructor; eauto.
Qed.

(** Along a shortest walk the distance grows by one with each step. *)
Lemma short_cut s t d l i v : s < n -> isd s t d -> l ∈ ws d s t -> l !! i = Some v -> isd s v i /\ wc (d - i) v t <> 0 /\ i <= d.
Proof.
  intros Hs [Hd1 Hd2] Hl Hi. apply ws_elem in Hl as [Hw HL]. destruct (walk_cut _ _ _ _ _ Hw Hi) as [H1 H2]. pose proof (lookup_lt_Some _ _ _ Hi) as Hlt.
  assert (C2 : wc (d - i) v t <> 0). { apply wc_walk. eexists. split; [exact H2|]. rewrite drop_length. lia. }
  assert (C1 : wc i s v <> 0). { apply wc_walk. eexists. split; [exact H1|]. rewrite take_length. lia. }
  split; [|split; [exact C2|lia]]. split; [exact C1|]. intros d' Hd. destruct (decide (wc d' s v = 0)) as [|Hne]; [assumption|exfalso].
  assert (Hv : v < n) by (eapply walk_range; [exact Hs|exact Hw|eapply elem_of_list_lookup_2, Hi]).
  apply (wc_trans d' (d - i) s v t Hne C2 Hs Hv). apply Hd2. lia.
Qed.
Lemma isd_lt s t d : s < n -> isd s t d -> d < n.
Proof.
  intros Hs Hd. pose proof Hd as [H _]. unfold wc in H. destruct (ws d s t) as [|l ls] eqn:El; [contradiction|]. assert (Hl : l ∈ ws d s t) by (rewrite El; left).
  assert (Hnd : NoDup l). { apply NoDup_alt. intros i j v Hi Hj. destruct (short_cut _ _ _ _ _ _ Hs Hd Hl Hi) as [D1 _]. destruct (short_cut _ _ _ _ _ _ Hs Hd Hl Hj) as [D2 _]. eapply isd_unique; eauto. }
  pose proof Hl as Hl'. apply ws_elem in Hl' as [Hw HL]. assert (Hle : length l <= length (seq 0 n)).
  { apply submseteq_length, NoDup_submseteq; [exact Hnd|]. intros v Hv. apply elem_of_seq. pose proof (walk_range _ _ _ Hs Hw v Hv). lia. }
  rewrite seq_length in Hle. lia.
Qed.

Definition dst (s t : nat) : option nat := head (filter (fun k => wc k s t <> 0) (seq 0 n)).
Lemma head_filter (P : nat -> Prop) `{forall x, Decision (P x)} a m d : head (filter P (seq a m)) = Some d <-> (a <= d < a + m /\ P d /\ forall d', a <= d' < d -> ~ P d').
Proof.
  revert a. induction m as [|m IH]; intros a; cbn [seq].
  - split; [discriminate|lia].
  - rewrite filter_cons. destruct (decide (P a)) as [Ha|Ha].
    + cbn. split; [intros [= <-]; split; [lia|split; [exact Ha|lia]]|]. intros (H1 & H2 & H3). f_equal. destruct (decide (a = d)) as [|Hne]; [assumption|]. exfalso. apply (H3 a); [lia|exact Ha].
    + rewrite IH. split.
      * intros (H1 & H2 & H3). split; [lia|]. split; [exact H2|]. intros d' Hd. destruct (decide (d' = a)) as [->|]; [exact Ha|apply H3; lia].
      * intros (H1 & H2 & H3). assert (d <> a) by (intros ->; contradiction). split; [lia|]. split; [exact H2|]. intros d' Hd. apply H3. lia.
Qed.
Lemma dst_isd s t d : s < n -> dst s t = Some d <-> isd s t d.
Proof.
  intros Hs. unfold dst. rewrite head_filter. split.
  - intros (_ & H2 & H3). split; [exact H2|]. intros d' Hd. specialize (H3 d' ltac:(lia)). lia.
  - intros Hd. pose proof (isd_lt _ _ _ Hs Hd). destruct Hd as [H1 H2]. split; [lia|]. split; [exact H1|]. intros d' Hd'. specialize (H2 d' ltac:(lia)). lia.
Qed.
Lemma dst_None s t k : s < n -> dst s t = None -> wc k s t = 0.
Proof.
  intros Hs H. destruct (decide (wc k s t = 0)) as [|Hne]; [assumption|exfalso]. destruct (isd_ex _ _ _ Hne) as (d & _ & Hd). apply dst_isd in Hd; [congruence|exact Hs].
Qed.
Lemma dst_self s : s < n -> dst s s = Some 0.
Proof. intros Hs. apply dst_isd; [exact Hs|]. split; [rewrite wc_0, decide_True by reflexivity; lia|lia]. Qed.
Lemma dst_0 s t : s < n -> dst s t = Some 0 -> t = s.
Proof. intros Hs H. apply dst_isd in H as [H _]; [|exact Hs]. rewrite wc_0 in H. destruct (decide (s = t)); [congruence|contradiction]. Qed.
Lemma dst_range s t d : s < n -> dst s t = Some d -> d < n /\ t < n.
Proof. intros Hs H. apply dst_isd in H; [|exact Hs]. split; [eapply isd_lt; eauto|]. eapply wc_range; [exact Hs|apply H]. Qed.
Lemma dst_step s u t d : s < n -> dst s u = Some d -> e u t = true -> exists d', dst s t = Some d' /\ d' <= S d.
Proof.
  intros Hs Hu Eu. pose proof (He _ _ Eu) as [Hun _]. apply dst_isd in Hu as [Hu _]; [|exact Hs].
  assert (H : wc (d + 1) s t <> 0) by (apply (wc_trans d 1 s u t); [exact Hu|rewrite wc_1, Eu; lia|exact Hs|exact Hun]).
  destruct (isd_ex _ _ _ H) as (d' & H1 & H2). exists d'. split; [apply dst_isd; assumption|lia].
Qed.
Lemma dst_pred s t d : s < n -> dst s t = Some (S d) -> exists u, e u t = true /\ dst s u = Some d.
Proof.
  intros Hs Ht. apply dst_isd in Ht; [|exact Hs]. pose proof Ht as [H _]. unfold wc in H. destruct (ws (S d) s t) as [|l ls] eqn:El; [contradiction|]. assert (Hl : l ∈ ws (S d) s t) by (rewrite El; left).
  pose proof Hl as Hl'. apply ws_elem in Hl' as [Hw HL]. destruct (lookup_lt_is_Some_2 l d ltac:(lia)) as [u Hu].
  destruct (short_cut _ _ _ _ _ _ Hs Ht Hl Hu) as (D & W & _). exists u. split; [|apply dst_isd; assumption]. replace (S d - d) with 1 in W by lia. rewrite wc_1 in W. destruct (e u t); [reflexivity|contradiction].
Qed.

(** Number of shortest paths *)
Definition sig (s t : nat) : nat := match dst s t with Some d => wc d s t | None => 0 end.
Lemma sig_pos s t d : s < n -> dst s t = Some d -> sig s t <> 0.
Proof. intros Hs H. unfold sig. rewrite H. apply dst_isd in H; [apply H|exact Hs]. Qed.
Lemma sig_self s : s < n -> sig s s = 1.
Proof. intros Hs. unfold sig. rewrite dst_self by exact Hs. rewrite wc_0, decide_True by reflexivity. reflexivity. Qed.
Lemma sig_step s t d : s < n -> dst s t = Some (S d) ->
  sig s t = sumN (seq 0 n) (fun u => if e u t then if decide (dst s u = Some d) then sig s u else 0 else 0).
Proof.
  intros Hs H. unfold sig at 1. rewrite H, wc_last by exact Hs. apply sumN_ext. intros u _. destruct (e u t) eqn:Eu; [|reflexivity].
  destruct (decide (dst s u = Some d)) as [D|D]; [unfold sig; rewrite D; reflexivity|]. destruct (decide (wc d s u = 0)) as [|Hne]; [assumption|exfalso].
  destruct (isd_ex _ _ _ Hne) as (d' & L & Hd). apply dst_isd in Hd; [|exact Hs]. assert (d' <> d) by congruence. destruct (dst_step _ _ _ _ Hs Hd Eu) as (d'' & D'' & L'').
  rewrite H in D''. injection D'' as <-. lia.
Qed.

Lemma shortest_iff s t l : s < n -> shortest E s t l <-> exists d, dst s t = Some d /\ l ∈ ws d s t.
Proof.
  intros Hs. split.
  - intros [Hw Hm]. assert (Hne : l <> []) by (destruct Hw; discriminate). exists (length l - 1). assert (HL : length l = S (length l - 1)) by (destruct l; [contradiction|cbn; lia]).
    assert (Hin : l ∈ ws (length l - 1) s t) by (apply ws_elem; auto). split; [|exact Hin]. apply dst_isd; [exact Hs|]. split; [apply wc_walk; eauto|].
    intros d' Hd. destruct (decide (wc d' s t = 0)) as [|Hc]; [assumption|exfalso]. apply wc_walk in Hc as (l' & Hw' & HL'). specialize (Hm l' Hw'). lia.
  - intros (d & Hd & Hl). apply ws_elem in Hl as [Hw HL]. split; [exact Hw|]. intros l' Hl'. apply dst_isd in Hd as [_ Hd]; [|exact Hs].
    destruct (decide (length l' < length l)) as [Hlt|]; [exfalso|lia]. assert (Hne : length l' <> 0) by (destruct Hl'; discriminate).
    assert (Hc : wc (length l' - 1) s t = 0) by (apply Hd; lia). revert Hc. apply wc_walk. exists l'. split; [exact Hl'|lia].
Qed.

Lemma sig_counts s t : s < n -> counts (shortest E s t) (sig s t).
Proof.
  intros Hs. unfold sig. destruct (dst s t) as [d|] eqn:Hd.
  - exists (ws d s t). split; [apply ws_nodup|]. split; [|reflexivity]. intros l. rewrite shortest_iff by exact Hs. split; [eauto|]. intros (d' & Hd' & Hl). congruence.
  - exists []. split; [constructor|]. split; [|reflexivity]. intros l. rewrite shortest_iff by exact Hs. split; [intros H; inversion H|]. intros (d' & Hd' & Hl). congruence.
Qed.

(** Shortest paths through [v] *)
Definition sigv (s t v : nat) : nat :=
  match dst s v, dst s t with
  | Some dv, Some dt => if decide (dv <= dt) then sig s v * wc (dt - dv) v t else 0
  | _, _ => 0
  end.

Lemma walk_prefix_inj s v t t' dv p q p' q' : p ∈ ws dv s v -> p' ∈ ws dv s v -> walk E v t q -> walk E v t' q' -> p ++ tail q = p' ++ tail q' -> p = p' /\ q = q'.
Proof.
  intros Hp Hp' Hq Hq' Heq. apply ws_elem in Hp as [_ L], Hp' as [_ L']. apply app_inj_1 in Heq as [-> Ht]; [|congruence]. split; [reflexivity|].
  destruct Hq, Hq'; cbn in Ht; congruence.
Qed.

Lemma sigv_counts s t v : s < n -> counts (fun l => shortest E s t l /\ v ∈ l) (sigv s t v).
Proof.
  intros Hs.
  assert (Hno : (forall l, ~ (shortest E s t l /\ v ∈ l)) -> counts (fun l => shortest E s t l /\ v ∈ l) 0).
  { intros H. exists []. split; [constructor|]. split; [|reflexivity]. intros l. split; [intros Hl; inversion Hl|intros Hl; destruct (H l Hl)]. }
  assert (Hat : forall l, shortest E s t l -> v ∈ l -> exists dt dv, dst s t = Some dt /\ dst s v = Some dv /\ dv <= dt /\ l ∈ ws dt s t /\ l !! dv = Some v).
  { intros l Hl Hv. apply shortest_iff in Hl as (dt & Hd & Hl); [|exact Hs]. apply elem_of_list_lookup in Hv as [i Hi].
    destruct (short_cut s t dt l i v Hs) as (D & W & Hle); [apply dst_isd; assumption|exact Hl|exact Hi|]. exists dt, i. split; [exact Hd|]. split; [apply dst_isd; assumption|]. auto. }
  unfold sigv. destruct (dst s v) as [dv|] eqn:Dv; [|apply Hno; intros l [H1 H2]; destruct (Hat l H1 H2) as (a & b & _ & Hb & _); congruence].
  destruct (dst s t) as [dt|] eqn:Dt; [|apply Hno; intros l [H1 H2]; destruct (Hat l H1 H2) as (a & b & Ha & _); congruence].
  destruct (decide (dv <= dt)) as [Hle|Hle]; [|apply Hno; intros l [H1 H2]; destruct (Hat l H1 H2) as (a & b & Ha & Hb & Hab & _); assert (a = dt) by congruence; assert (b = dv) by congruence; lia].
  exists (mjoin ((fun p => (fun q => p ++ tail q) <$> ws (dt - dv) v t) <$> ws dv s v)). split; [|split].
  - apply NoDup_mjoin.
    + intros l Hl. apply elem_of_list_fmap in Hl as (p & -> & Hp). apply NoDup_fmap_2_strong; [|apply ws_nodup]. intros q q' Hq Hq' Heq.
      apply ws_elem in Hq as [Hq _], Hq' as [Hq' _]. eapply walk_prefix_inj; eauto.
    + intros i j a b x Ha Hb Hxa Hxb. apply list_lookup_fmap_inv in Ha as (p & -> & Hp). apply list_lookup_fmap_inv in Hb as (p' & -> & Hp').
      apply elem_of_list_fmap in Hxa as (q & -> & Hq). apply elem_of_list_fmap in Hxb as (q' & Heq & Hq'). apply ws_elem in Hq as [Hq _], Hq' as [Hq' _].
      destruct (walk_prefix_inj s v t t dv p q p' q') as [<- _]; [eapply elem_of_list_lookup_2, Hp|eapply elem_of_list_lookup_2, Hp'|exact Hq|exact Hq'|exact Heq|].
      eapply NoDup_lookup; [apply (ws_nodup dv s v)|exact Hp|exact Hp'].
  - intros l. split.
    + intros Hl. apply elem_of_list_join in Hl as (ll & Hl & Hll). apply elem_of_list_fmap in Hll as (p & -> & Hp). apply elem_of_list_fmap in Hl as (q & -> & Hq).
      apply ws_elem in Hp as [Hp Lp], Hq as [Hq Lq]. split.
      * apply shortest_iff; [exact Hs|]. exists dt. split; [exact Dt|]. apply ws_elem. split; [eapply walk_join; eauto|]. rewrite app_length. destruct q; [discriminate|]. cbn [tail length] in *. lia.
      * apply elem_of_app. left. clear -Hp. induction Hp; [left|right; assumption].
    + intros [H1 H2]. destruct (Hat l H1 H2) as (a & b & Ha & Hb & Hab & Hl & Hv). assert (a = dt) by congruence. assert (b = dv) by congruence. subst a b.
      pose proof Hl as Hl'. apply ws_elem in Hl' as [Hw HL]. destruct (walk_cut _ _ _ _ _ Hw Hv) as [W1 W2].
      apply elem_of_list_join. exists ((fun q => take (S dv) l ++ tail q) <$> ws (dt - dv) v t). split.
      * apply elem_of_list_fmap. exists (drop dv l). split; [|apply ws_elem; split; [exact W2|rewrite drop_length; lia]].
        rewrite <- (take_drop (S dv) l) at 1. f_equal. rewrite (drop_S l v dv Hv). reflexivity.
      * apply elem_of_list_fmap. exists (take (S dv) l). split; [reflexivity|]. apply ws_elem. split; [exact W1|rewrite take_length; lia].
  - rewrite mjoin_length, <- list_fmap_compose. unfold sig. rewrite Dv. unfold wc at 1. generalize (ws dv s v). intros ls.
    induction ls as [|p ls IH]; [reflexivity|]. rewrite fmap_cons. cbn [sum_list sum_list_with foldr length] in *. unfold id, compose in *. rewrite fmap_length. fold (wc (dt - dv) v t). unfold id in IH. lia.
Qed.

(** ** Dependencies *)
Definition dep (s v : nat) : Qc :=
  sumQ (seq 0 n) (fun t => if decide (t = v) then 0%Qc else (Qc_of_nat (sigv s t v) / Qc_of_nat (sig s t))%Qc).

Lemma dep_step s v d : s < n -> dst s v = Some d ->
  dep s v = sumQ (seq 0 n) (fun w => if e v w then if decide (dst s w = Some (S d)) then (Qc_of_nat (sig s v) / Qc_of_nat (sig s w) * (1 + dep s w))%Qc else 0%Qc else 0%Qc).
Proof.
  intros Hs Dv. unfold dep at 1.
  transitivity (sumQ (seq 0 n) (fun t => sumQ (seq 0 n) (fun w => if e v w then if decide (dst s w = Some (S d)) then
      (Qc_of_nat (sig s v) / Qc_of_nat (sig s w) * (Qc_of_nat (sigv s t w) / Qc_of_nat (sig s t)))%Qc else 0%Qc else 0%Qc))).
  - apply sumQ_ext. intros t _. destruct (decide (t = v)) as [->|Htv].
    + symmetry. apply sumQ_0. intros w _. destruct (e v w); [|reflexivity]. destruct (decide _) as [Dw|]; [|reflexivity].
      unfold sigv. rewrite Dw, Dv, decide_False by lia. unfold Qcdiv. rewrite (proj2 (QN_0 0) eq_refl). ring.
    + unfold sigv at 1. rewrite Dv. destruct (dst s t) as [dt|] eqn:Dt.
      2:{ unfold Qcdiv at 1. rewrite (proj2 (QN_0 0) eq_refl), Qcmult_0_l. symmetry. apply sumQ_0. intros w _. destruct (e v w); [|reflexivity]. destruct (decide _) as [Dw|]; [|reflexivity].
          unfold sigv. rewrite Dw, Dt. unfold Qcdiv. rewrite (proj2 (QN_0 0) eq_refl). ring. }
      assert (Hzero : forall w, dst s w = Some (S d) -> ~ S d <= dt -> sigv s t w = 0) by (intros w Dw Hn; unfold sigv; rewrite Dw, Dt, decide_False by exact Hn; reflexivity).
      destruct (decide (d <= dt)) as [Hle|Hle].
      2:{ unfold Qcdiv at 1. rewrite (proj2 (QN_0 0) eq_refl), Qcmult_0_l. symmetry. apply sumQ_0. intros w _. destruct (e v w); [|reflexivity]. destruct (decide _) as [Dw|]; [|reflexivity].
          rewrite Hzero; [|exact Dw|lia]. unfold Qcdiv. rewrite (proj2 (QN_0 0) eq_refl). ring. }
      destruct (decide (dt = d)) as [->|Hne].
      { rewrite Nat.sub_diag, wc_0, decide_False by congruence. rewrite Nat.mul_0_r. unfold Qcdiv at 1. rewrite (proj2 (QN_0 0) eq_refl), Qcmult_0_l. symmetry. apply sumQ_0.
        intros w _. destruct (e v w); [|reflexivity]. destruct (decide _) as [Dw|]; [|reflexivity]. rewrite Hzero; [|exact Dw|lia]. unfold Qcdiv. rewrite (proj2 (QN_0 0) eq_refl). ring. }
      destruct (dt - d) as [|k] eqn:Ek; [lia|]. rewrite wc_S, QN_mul, QN_sum. unfold Qcdiv at 1. rewrite Qcmult_comm, Qcmult_assoc, Qcmult_comm, <- sumQ_mul. apply sumQ_ext. intros w _.
      destruct (e v w) eqn:Ew; [|rewrite (proj2 (QN_0 0) eq_refl); ring]. destruct (decide (dst s w = Some (S d))) as [Dw|Dw].
      * unfold sigv. rewrite Dw, Dt, decide_True by lia. replace (dt - S d) with k by lia. rewrite QN_mul. field. split; rewrite QN_0; [eapply sig_pos; eassumption|eapply sig_pos; eassumption].
      * assert (wc k w t = 0) as ->; [|rewrite (proj2 (QN_0 0) eq_refl); ring]. destruct (decide (wc k w t = 0)) as [|Hk]; [assumption|exfalso].
        destruct (dst_step s v w d Hs Dv Ew) as (dw & Dw' & Hdw). assert (dw <= d) by (destruct (decide (dw = S d)) as [->|]; [contradiction|lia]).
        pose proof (dst_range s w dw Hs Dw') as [_ Hwn]. apply dst_isd in Dw' as [Cw _]; [|exact Hs]. apply dst_isd in Dt as [_ Ct]; [|exact Hs].
        apply (wc_trans dw k s w t Cw Hk Hs Hwn). apply Ct. lia.
  - rewrite sumQ_swap. apply sumQ_ext. intros w Hw. destruct (e v w) eqn:Ew; [|apply sumQ_0; reflexivity]. destruct (decide (dst s w = Some (S d))) as [Dw|Dw]; [|apply sumQ_0; reflexivity].
    assert (Hsw : Qc_of_nat (sig s w) <> 0%Qc) by (rewrite QN_0; eapply sig_pos; eassumption).
    rewrite (sumQ_ext _ _ (fun t => (Qc_of_nat (sigv s t w) / Qc_of_nat (sig s t) * (Qc_of_nat (sig s v) / Qc_of_nat (sig s w)))%Qc)) by (intros t _; apply Qcmult_comm).
    rewrite sumQ_mul, Qcmult_comm. f_equal.
    rewrite (sumQ_ext _ _ (fun t => ((if decide (t = w) then 1 else 0) + (if decide (t = w) then 0 else Qc_of_nat (sigv s t w) / Qc_of_nat (sig s t)))%Qc)).
    + rewrite sumQ_add. f_equal. rewrite (sumQ_one _ _ w); [rewrite decide_True by reflexivity; reflexivity|apply NoDup_seq|exact Hw|]. intros y _ Hy. rewrite decide_False by exact Hy. reflexivity.
    + intros t _. destruct (decide (t = w)) as [->|]; [|ring]. unfold sigv. rewrite Dw, decide_True by lia. rewrite Nat.sub_diag, wc_0, decide_True by reflexivity. rewrite Nat.mul_1_r. field. exact Hsw.
Qed.
End W.
