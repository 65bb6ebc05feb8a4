From Verif Require Export RadixModel BaseProofs.

(** [l'] is [l] sorted by [key]; elements with equal keys keep their order. *)
Definition stableSorted {T K} `{EqDecision K} (le : K -> K -> Prop) (key : T -> K) (l l' : list T) : Prop :=
  l' ≡ₚ l /\ StronglySorted (fun x y => le (key x) (key y)) l' /\
  (forall k, filter (fun x => key x = k) l' = filter (fun x => key x = k) l).

Section Stable.
Context {T : Type}.

Lemma SSorted_filter (R : T -> T -> Prop) (P : T -> Prop) `{forall x, Decision (P x)} l :
  StronglySorted R l -> StronglySorted R (filter P l).
Proof.
  induction 1 as [|x l Hs IH Hf]; [constructor|]. rewrite filter_cons. destruct (decide (P x)); [|exact IH].
  constructor; [exact IH|]. rewrite Forall_forall in Hf |- *. intros y Hy. apply Hf. apply elem_of_list_filter in Hy. apply Hy.
Qed.

Lemma SSorted_lex {K2} `{EqDecision K2} (R2 : K2 -> K2 -> Prop) (R : T -> T -> Prop) (k2 : T -> K2) l :
  StronglySorted (fun x y => R2 (k2 x) (k2 y)) l -> (forall v : K2, StronglySorted R (filter (fun x => k2 x = v) l)) ->
  StronglySorted (fun x y => (k2 x <> k2 y /\ R2 (k2 x) (k2 y)) \/ (k2 x = k2 y /\ R x y)) l.
Proof.
  induction 1 as [|x l Hs IH Hf]; intros Hv; [constructor|]. constructor.
  - apply IH. intros v. specialize (Hv v). rewrite filter_cons in Hv. destruct (decide _); [|exact Hv].
    inversion Hv; assumption.
  - specialize (Hv (k2 x)). rewrite filter_cons in Hv. rewrite decide_True in Hv by reflexivity.
    inversion Hv as [|? ? _ Hq]; subst. rewrite Forall_forall in Hq, Hf |- *. intros y Hy.
    destruct (decide (k2 x = k2 y)) as [E|E]; [right; split; [exact E|]|left; split; [exact E|apply Hf, Hy]].
    apply Hq. apply elem_of_list_filter. auto.
Qed.

Lemma filter_filter_eq (P Q : T -> Prop) `{forall x, Decision (P x)} `{forall x, Decision (Q x)} (l : list T) :
  (forall x, P x -> Q x) -> filter P (filter Q l) = filter P l.
Proof.
  intros Hi. induction l as [|x l IH]; [reflexivity|]. rewrite !filter_cons.
  destruct (decide (Q x)) as [q|q].
  - rewrite filter_cons. destruct (decide (P x)); rewrite IH; reflexivity.
  - destruct (decide (P x)) as [p|p]; [destruct (q (Hi _ p))|exact IH].
Qed.

(** Sorting by the less significant key first, then by the more significant one. *)
Lemma stable_compose {K1 K2} `{EqDecision K1} `{EqDecision K2} (R1 : K1 -> K1 -> Prop) (R2 : K2 -> K2 -> Prop)
    (k1 : T -> K1) (k2 : T -> K2) l0 l1 l2 :
  stableSorted R1 k1 l0 l1 -> stableSorted R2 k2 l1 l2 ->
  stableSorted (fun a b : K2 * K1 => (a.1 <> b.1 /\ R2 a.1 b.1) \/ (a.1 = b.1 /\ R1 a.2 b.2)) (fun x => (k2 x, k1 x)) l0 l2.
Proof.
  intros (P1 & S1 & F1) (P2 & S2 & F2). split; [etransitivity; eassumption|]. split.
  - simpl. apply SSorted_lex; [exact S2|]. intros v. rewrite F2. apply SSorted_filter, S1.
  - intros [v u].
    assert (E : forall l : list T, filter (fun x => (k2 x, k1 x) = (v, u)) l = filter (fun x => k1 x = u) (filter (fun x => k2 x = v) l)).
    { intros l. induction l as [|x l IH]; [reflexivity|]. rewrite !filter_cons.
      destruct (decide (k2 x = v)) as [Ev|Ev].
      - rewrite filter_cons. destruct (decide (k1 x = u)) as [Eu|Eu].
        + rewrite decide_True by congruence. rewrite IH. reflexivity.
        + rewrite decide_False by congruence. exact IH.
      - rewrite decide_False by congruence. exact IH. }
    assert (E' : forall l : list T, filter (fun x => (k2 x, k1 x) = (v, u)) l = filter (fun x => k2 x = v) (filter (fun x => k1 x = u) l)).
    { intros l. induction l as [|x l IH]; [reflexivity|]. rewrite !filter_cons.
      destruct (decide (k1 x = u)) as [Eu|Eu].
      - rewrite filter_cons. destruct (decide (k2 x = v)) as [Ev|Ev].
        + rewrite decide_True by congruence. rewrite IH. reflexivity.
        + rewrite decide_False by congruence. exact IH.
      - rewrite decide_False by congruence. exact IH. }
    rewrite E, F2, <- E, !E', F1. reflexivity.
Qed.

Lemma SSorted_impl (R R' : T -> T -> Prop) l : (forall x y, x ∈ l -> y ∈ l -> R x y -> R' x y) ->
  StronglySorted R l -> StronglySorted R' l.
Proof.
  intros Hi Hs. induction Hs as [|x l Hs IH Hf]; [constructor|]. constructor.
  - apply IH. intros a b Ha Hb. apply Hi; right; assumption.
  - rewrite Forall_forall in Hf |- *. intros y Hy. apply Hi; [left|right; exact Hy|apply Hf, Hy].
Qed.

Lemma filter_ext_in (P Q : T -> Prop) `{forall x, Decision (P x)} `{forall x, Decision (Q x)} (l : list T) :
  (forall x, x ∈ l -> P x <-> Q x) -> filter P l = filter Q l.
Proof.
  induction l as [|x l IH]; intros Hi; [reflexivity|]. rewrite !filter_cons.
  rewrite IH by (intros y Hy; apply Hi; right; exact Hy).
  destruct (decide (P x)) as [p|p], (decide (Q x)) as [q|q]; try reflexivity; exfalso;
    [apply q, Hi; [left|exact p]|apply p, Hi; [left|exact q]].
Qed.

Lemma filter_none (P : T -> Prop) `{forall x, Decision (P x)} (l : list T) : (forall x, x ∈ l -> ~ P x) -> filter P l = [].
Proof.
  induction l as [|x l IH]; intros Hi; [reflexivity|]. rewrite filter_cons, decide_False by (apply Hi; left).
  apply IH. intros y Hy. apply Hi. right. exact Hy.
Qed.

(** The same elements under another name of the keys. *)
Lemma stable_rekey {K K'} `{EqDecision K} `{EqDecision K'} (R : K -> K -> Prop) (R' : K' -> K' -> Prop)
    (k : T -> K) (k' : T -> K') l l' :
  (forall x y, x ∈ l -> y ∈ l -> (k x = k y <-> k' x = k' y)) ->
  (forall x y, x ∈ l -> y ∈ l -> R (k x) (k y) -> R' (k' x) (k' y)) ->
  stableSorted R k l l' -> stableSorted R' k' l l'.
Proof.
  intros He Hi (P & S & F). split; [exact P|]. split.
  - eapply SSorted_impl; [|exact S]. simpl. intros x y Hx Hy. apply Hi; rewrite <- P; assumption.
  - intros v. destruct (decide (Exists (fun x => k' x = v) l)) as [Hx|Hx].
    + apply Exists_exists in Hx as (x0 & Hx0 & <-).
      rewrite (filter_ext_in (fun x => k' x = k' x0) (fun x => k x = k x0) l') by
        (intros x Hx; rewrite P in Hx; symmetry; apply He; assumption).
      rewrite (filter_ext_in (fun x => k' x = k' x0) (fun x => k x = k x0) l) by
        (intros x Hx; symmetry; apply He; assumption).
      apply F.
    + rewrite !filter_none; [reflexivity| |]; intros x Hx' Hv; apply Hx, Exists_exists; exists x; split; try assumption.
      rewrite <- P. exact Hx'.
Qed.

Lemma stable_unit (l : list T) : stableSorted (fun _ _ : unit => True) (fun _ => tt) l l.
Proof.
  split; [reflexivity|]. split; [|reflexivity]. induction l as [|x l IH]; constructor; [exact IH|].
  apply Forall_forall. auto.
Qed.
End Stable.

(** The buckets of a counting sort. *)
Section Buckets.
Context {T : Type}.
Implicit Types (d : T -> nat) (l : list T).

Definition cnt d (v : nat) l : nat := length (filter (fun x => d x = v) l).
Fixpoint start d l (v : nat) : nat := match v with O => 0 | S v' => start d l v' + cnt d v' l end.
Fixpoint buckets d l (v : nat) : list T := match v with O => [] | S v' => buckets d l v' ++ filter (fun x => d x = v') l end.

Lemma buckets_length d l v : length (buckets d l v) = start d l v.
Proof. induction v as [|v IH]; simpl; [reflexivity|]. rewrite app_length, IH. reflexivity. Qed.

Lemma start_mono d l u v : u <= v -> start d l u <= start d l v.
Proof. induction 1; simpl; lia. Qed.

Lemma start_cnt d l u v : u < v -> start d l u + cnt d u l <= start d l v.
Proof. intros Huv. apply (start_mono d l (S u) v). exact Huv. Qed.

Lemma buckets_perm d l v : buckets d l v ≡ₚ filter (fun x => d x < v) l.
Proof.
  induction v as [|v IH]; simpl.
  - rewrite filter_none; [reflexivity|]. lia.
  - rewrite IH. clear IH. induction l as [|x l IH]; [reflexivity|].
    rewrite !filter_cons. destruct (decide (d x < v)), (decide (d x = v)), (decide (d x < S v)); try lia.
    + simpl. rewrite IH. reflexivity.
    + rewrite <- Permutation_middle, IH. reflexivity.
    + exact IH.
Qed.

Lemma filter_all (P : T -> Prop) `{forall x, Decision (P x)} l : (forall x, x ∈ l -> P x) -> filter P l = l.
Proof.
  induction l as [|x l IH]; intros Hi; [reflexivity|]. rewrite filter_cons, decide_True by (apply Hi; left).
  rewrite IH; [reflexivity|]. intros y Hy. apply Hi. right. exact Hy.
Qed.

Lemma buckets_all d l v : (forall x, x ∈ l -> d x < v) -> buckets d l v ≡ₚ l.
Proof. intros Hd. rewrite buckets_perm, filter_all by exact Hd. reflexivity. Qed.

Lemma start_all d l v : (forall x, x ∈ l -> d x < v) -> start d l v = length l.
Proof. intros Hd. rewrite <- buckets_length. apply Permutation_length, buckets_all, Hd. Qed.

Lemma buckets_lookup d l v u q : u < v -> q < cnt d u l -> buckets d l v !! (start d l u + q) = filter (fun x => d x = u) l !! q.
Proof.
  induction v as [|v IH]; intros Hu Hq; [lia|]. simpl.
  destruct (decide (u = v)) as [->|Hne].
  - rewrite lookup_app_r by (rewrite buckets_length; lia). rewrite buckets_length. f_equal. lia.
  - rewrite lookup_app_l; [apply IH; lia|]. rewrite buckets_length. pose proof (start_cnt d l u v). lia.
Qed.

(** Every position below the end lies in one bucket. *)
Lemma start_split d l v p : p < start d l v -> exists u q, u < v /\ q < cnt d u l /\ p = start d l u + q.
Proof.
  induction v as [|v IH]; simpl; [lia|]. intros Hp. destruct (decide (p < start d l v)) as [Hlt|Hge].
  - destruct (IH Hlt) as (u & q & Hu & Hq & ->). exists u, q. split; [lia|]. auto.
  - exists v, (p - start d l v). lia.
Qed.

Lemma start_uniq d l u v q r : q < cnt d u l -> r < cnt d v l -> start d l u + q = start d l v + r -> u = v /\ q = r.
Proof.
  intros Hq Hr He. destruct (Nat.lt_trichotomy u v) as [Hlt|[->|Hlt]].
  - pose proof (start_cnt d l u v Hlt). lia.
  - split; lia.
  - pose proof (start_cnt d l v u Hlt). lia.
Qed.

Lemma cnt_snoc d v l x : cnt d v (l ++ [x]) = cnt d v l + (if d x =? v then 1 else 0).
Proof.
  unfold cnt. rewrite filter_app, app_length, filter_cons, filter_nil. f_equal.
  destruct (decide (d x = v)) as [E|E]; [rewrite (proj2 (Nat.eqb_eq _ _) E)|rewrite (proj2 (Nat.eqb_neq _ _) E)]; reflexivity.
Qed.

Lemma cnt_take_lt d l i x : l !! i = Some x -> cnt d (d x) (take i l) < cnt d (d x) l.
Proof.
  intros Hi. assert (E : l = take i l ++ [x] ++ drop (S i) l).
  { rewrite <- (take_drop i l) at 1. f_equal. erewrite drop_S by exact Hi. reflexivity. }
  unfold cnt. rewrite E at 2. rewrite !filter_app, !app_length, filter_cons, decide_True by reflexivity. simpl. lia.
Qed.

Lemma stable_buckets d l v : (forall x, x ∈ l -> d x < v) -> stableSorted le d l (buckets d l v).
Proof.
  intros Hd. split; [apply buckets_all, Hd|]. split.
  - clear Hd. induction v as [|v IH]; [constructor|]. simpl.
    assert (Hf : forall x, x ∈ buckets d l v -> d x < v).
    { intros x Hx. rewrite buckets_perm in Hx. apply elem_of_list_filter in Hx. apply Hx. }
    revert IH Hf. generalize (buckets d l v) as b. induction b as [|x b IHb]; intros Hs Hf.
    + simpl. clear. induction l as [|x l IH]; [constructor|]. rewrite filter_cons. destruct (decide (d x = v)) as [E|]; [|exact IH].
      constructor; [exact IH|]. apply Forall_forall. intros y Hy. apply elem_of_list_filter in Hy as [Hy _]. lia.
    + inversion Hs as [|? ? Hs' Hf']; subst. simpl. constructor.
      * apply IHb; [exact Hs'|]. intros y Hy. apply Hf. right. exact Hy.
      * apply Forall_app. split; [exact Hf'|]. apply Forall_forall. intros y Hy.
        apply elem_of_list_filter in Hy as [Hy _]. specialize (Hf x ltac:(left)). lia.
  - intros k. destruct (decide (k < v)) as [Hk|Hk].
    + clear Hd. induction v as [|v IH]; [lia|]. simpl. rewrite filter_app. destruct (decide (k = v)) as [->|Hne].
      * rewrite (filter_none _ (buckets d l v)).
        { simpl. rewrite filter_filter_eq by auto. reflexivity. }
        intros x Hx. rewrite buckets_perm in Hx. apply elem_of_list_filter in Hx. lia.
      * rewrite IH by lia. rewrite (filter_none _ (filter _ _)); [apply app_nil_r|].
        intros x Hx. apply elem_of_list_filter in Hx. lia.
    + rewrite !filter_none; [reflexivity| |]; intros x Hx; [|rewrite buckets_perm in Hx; apply elem_of_list_filter in Hx as [_ Hx]];
        specialize (Hd _ Hx); lia.
Qed.
End Buckets.

(** The first cells of [a] hold the elements [l]. *)
Definition holdsL {T} (a : list (option T)) (l : list T) : Prop :=
  length l <= length a /\ forall i x, l !! i = Some x -> a !! i = Some (Some x).

Lemma pow2_pos (e : N) : (0 < 2 ^ e)%N.
Proof. pose proof (N.pow_nonzero 2 e). lia. Qed.

Section Pass.
Context {T : Type}.
Variables (w : N) (d : T -> nat) (l : list T).
Hypothesis Hw : (N.of_nat (length l) <= 2 ^ w)%N.
Hypothesis Hd : forall x, x ∈ l -> d x < 256.

Lemma modw_small a : (a < 2 ^ w)%N -> (a mod 2 ^ w = a)%N.
Proof. apply N.mod_small. Qed.

Lemma modw_add a b : (((a mod 2 ^ w) + b) mod 2 ^ w = (a + b) mod 2 ^ w)%N.
Proof. apply N.add_mod_idemp_l. pose proof (pow2_pos w). lia. Qed.

Lemma modw_add2 a b : ((a mod 2 ^ w + b mod 2 ^ w) mod 2 ^ w = (a + b) mod 2 ^ w)%N.
Proof. symmetry. apply N.add_mod. pose proof (pow2_pos w). lia. Qed.

Definition countsAre (f : nat -> nat) (counts : list N) : Prop :=
  length counts = 256 /\ forall v, v < 256 -> counts !! v = Some (N.of_nat (f v) mod 2 ^ w)%N.

Lemma bumpW_ok f counts v : countsAre f counts -> v < 256 ->
  exists counts', bumpW w counts v = Ok ((N.of_nat (f v) mod 2 ^ w)%N, counts') /\
    countsAre (fun u => f u + if v =? u then 1 else 0) counts'.
Proof.
  intros [HL Hc] Hv. unfold bumpW. rewrite (get_Some _ _ _ (Hc v Hv)), bind_Ok.
  rewrite set_Ok by lia. rewrite bind_Ok. eexists. split; [reflexivity|]. split; [rewrite insert_length; exact HL|].
  intros u Hu. destruct (decide (u = v)) as [->|Hne].
  - rewrite list_lookup_insert by lia. rewrite Nat.eqb_refl, modw_add. do 2 f_equal. lia.
  - rewrite list_lookup_insert_ne by congruence. rewrite Hc by exact Hu.
    destruct (Nat.eqb_spec v u); [congruence|]. rewrite Nat.add_0_r. reflexivity.
Qed.

Lemma histogram_ok src : holdsL src l ->
  exists h, histogram w d src (length l) = Ok h /\ countsAre (fun v => cnt d v l) h.
Proof.
  intros [_ Hsrc]. unfold histogram.
  destruct (for_inv (fun i counts => countsAre (fun v => cnt d v (take i l)) counts)
    (fun i counts => x <- getI src i ;; '(_, counts) <- bumpW w counts (d x) ;; Ok counts) 0 (length l) (replicate 256 0%N)) as (h & Hh & Hc).
  - lia.
  - split; [reflexivity|]. intros v Hv. rewrite lookup_replicate_2 by exact Hv. rewrite take_0. unfold cnt. simpl.
    rewrite N.mod_0_l; [reflexivity|]. pose proof (pow2_pos w). lia.
  - intros i counts Hi Hc. destruct (lookup_lt_is_Some_2 l i) as [x Hx]; [lia|].
    rewrite (getI_Some _ _ _ (Hsrc _ _ Hx)), bind_Ok.
    destruct (bumpW_ok _ _ (d x) Hc) as (c' & Hb & Hc'); [apply Hd; eapply elem_of_list_lookup_2; eauto|].
    rewrite Hb, bind_Ok. exists c'. split; [reflexivity|]. rewrite Nat.add_1_r, (take_S_r _ _ _ Hx).
    destruct Hc' as [HL Hc']. split; [exact HL|]. intros v Hv. rewrite Hc' by exact Hv. rewrite cnt_snoc. reflexivity.
  - exists h. split; [exact Hh|]. rewrite firstn_all in Hc. exact Hc.
Qed.

Lemma firstPos_ok h : countsAre (fun v => cnt d v l) h ->
  exists c, firstPos w h = Ok c /\ countsAre (start d l) c.
Proof.
  intros [HL Hh]. unfold firstPos.
  destruct (for_inv (fun i (st : list N * N) => let '(counts, total) := st in length counts = 256 /\ total = (N.of_nat (start d l i) mod 2 ^ w)%N /\
      (forall v, v < 256 -> counts !! v = Some (N.of_nat (if (v <? i)%nat then start d l v else cnt d v l) mod 2 ^ w)%N))
    (fun i '(counts, total) => old <- get counts i ;; counts <- set_ counts i total ;; Ok (counts, ((total + old) mod 2 ^ w)%N))
    0 256 (h, 0%N)) as ([c total] & Hh' & HL' & _ & Hc).
  - lia.
  - split; [exact HL|]. split; [|exact Hh]. simpl. rewrite N.mod_0_l; [reflexivity|]. pose proof (pow2_pos w). lia.
  - intros i [counts total] Hi (HL' & -> & Hc). rewrite (get_Some _ _ _ (Hc i ltac:(lia))), bind_Ok, set_Ok by lia.
    rewrite bind_Ok. eexists. split; [reflexivity|]. cbv beta iota. split; [rewrite insert_length; exact HL'|]. split.
    + rewrite Nat.ltb_irrefl, modw_add2. rewrite Nat.add_1_r. simpl. do 2 f_equal. lia.
    + intros v Hv. destruct (decide (v = i)) as [->|Hne].
      * rewrite list_lookup_insert by lia. destruct (Nat.ltb_spec i (i + 1)); [reflexivity|lia].
      * rewrite list_lookup_insert_ne by congruence. rewrite Hc by exact Hv.
        destruct (Nat.ltb_spec v i), (Nat.ltb_spec v (i + 1)); try lia; reflexivity.
  - rewrite Hh', bind_Ok. exists c. split; [reflexivity|]. split; [exact HL'|]. intros v Hv.
    rewrite Hc by exact Hv. destruct (Nat.ltb_spec v 256); [reflexivity|lia].
Qed.

Lemma scatter_ok src dst counts : holdsL src l -> length l <= length dst -> countsAre (start d l) counts ->
  exists src' dst', scatter w d src dst counts (length l) = Ok (src', dst') /\
    length src' = length src /\ length dst' = length dst /\
    drop (length l) src' = drop (length l) src /\ drop (length l) dst' = drop (length l) dst /\
    holdsL dst' (buckets d l 256).
Proof.
  intros [HLs Hsrc] HLd Hc0. unfold scatter.
  assert (Hall : start d l 256 = length l) by (apply start_all, Hd).
  destruct (for_inv (fun i (st : list (option T) * list (option T) * list N) => let '(s, t, counts) := st in length s = length src /\ length t = length dst /\
      (forall j, i <= j -> s !! j = src !! j) /\ (forall j, length l <= j -> t !! j = dst !! j) /\
      countsAre (fun v => start d l v + cnt d v (take i l)) counts /\
      (forall v q, v < 256 -> q < cnt d v (take i l) -> t !! (start d l v + q) = Some (filter (fun x => d x = v) (take i l) !! q)))
    (fun i '(src, dst, counts) => x <- getI src i ;; '(c, counts) <- bumpW w counts (d x) ;;
      dst <- set_ dst (N.to_nat c) (Some x) ;; src <- set_ src i None ;; Ok (src, dst, counts))
    0 (length l) (src, dst, counts)) as ([[s t] c] & Hr & Ls & Lt & Hs & Ht & Hc & Hv).
  - lia.
  - split; [reflexivity|]. split; [reflexivity|]. split; [auto|]. split; [auto|]. split.
    + destruct Hc0 as [HL Hc0]. split; [exact HL|]. intros v Hv. rewrite Hc0 by exact Hv. rewrite take_0. unfold cnt. simpl.
      rewrite Nat.add_0_r. reflexivity.
    + intros v q _ Hq. rewrite take_0 in Hq. unfold cnt in Hq. simpl in Hq. lia.
  - intros i [[s t] c] Hi (Ls & Lt & Hs & Ht & Hc & Hv).
    destruct (lookup_lt_is_Some_2 l i) as [x Hx]; [lia|].
    assert (Hxd : d x < 256) by (apply Hd; eapply elem_of_list_lookup_2; eauto).
    pose proof (cnt_take_lt d l i x Hx) as Hlt.
    pose proof (start_cnt d l (d x) 256 Hxd) as Hsc.
    rewrite (getI_Some s i x) by (rewrite Hs by lia; apply Hsrc, Hx). rewrite bind_Ok.
    destruct (bumpW_ok _ _ (d x) Hc Hxd) as (c' & Hb & Hc'). rewrite Hb, bind_Ok.
    rewrite modw_small by lia. rewrite Nat2N.id.
    rewrite set_Ok by lia. rewrite bind_Ok, set_Ok by lia. rewrite bind_Ok.
    eexists. split; [reflexivity|]. cbv beta iota. rewrite !insert_length.
    split; [exact Ls|]. split; [exact Lt|]. split; [|split; [|split]].
    + intros j Hj. rewrite list_lookup_insert_ne by lia. apply Hs. lia.
    + intros j Hj. rewrite list_lookup_insert_ne by lia. apply Ht, Hj.
    + destruct Hc' as [HL Hc']. split; [exact HL|]. intros v Hv'. rewrite Hc' by exact Hv'. do 3 f_equal.
      rewrite Nat.add_1_r, (take_S_r _ _ _ Hx), cnt_snoc. lia.
    + intros v q Hv' Hq. rewrite Nat.add_1_r, (take_S_r _ _ _ Hx) in Hq |- *. rewrite cnt_snoc in Hq.
      rewrite filter_app, filter_cons, filter_nil. destruct (decide (d x = v)) as [Ev|Ev].
      * rewrite (proj2 (Nat.eqb_eq _ _) Ev) in Hq. destruct (decide (q = cnt d v (take i l))) as [->|Hne].
        -- subst v. rewrite list_lookup_insert by lia. unfold cnt. rewrite list_lookup_middle; reflexivity.
        -- rewrite list_lookup_insert_ne by (subst v; lia). rewrite Hv by lia. rewrite lookup_app_l by (unfold cnt in *; lia). reflexivity.
      * rewrite (proj2 (Nat.eqb_neq _ _) Ev), Nat.add_0_r in Hq. rewrite list_lookup_insert_ne.
        -- rewrite app_nil_r. apply Hv; assumption.
        -- intros Hcl. apply start_uniq in Hcl as [Hcl _]; [congruence|exact Hlt|].
           assert (cnt d v (take i l) <= cnt d v l); [|lia].
           unfold cnt. rewrite <- (take_drop i l) at 2. rewrite filter_app, app_length. lia.
  - rewrite Hr, bind_Ok. exists s, t. split; [reflexivity|]. split; [exact Ls|]. split; [exact Lt|]. split; [|split; [|split]].
    + apply list_eq. intros j. rewrite !lookup_drop. apply Hs. lia.
    + apply list_eq. intros j. rewrite !lookup_drop. apply Ht. lia.
    + rewrite buckets_length, Hall. lia.
    + intros j x Hx. pose proof (lookup_lt_Some _ _ _ Hx) as Hj. rewrite buckets_length in Hj.
      apply start_split in Hj as (v & q & Hv' & Hq & ->). rewrite buckets_lookup in Hx by assumption.
      rewrite firstn_all in Hv. rewrite Hv by assumption. rewrite Hx. reflexivity.
Qed.
End Pass.

(** ** Digit by digit *)
Lemma digit_split p k : (k mod 2 ^ (8 * N.of_nat (S p)) = k mod 2 ^ (8 * N.of_nat p) + 2 ^ (8 * N.of_nat p) * N.of_nat (digit p k))%N.
Proof.
  replace (8 * N.of_nat (S p))%N with (8 * N.of_nat p + 8)%N by lia. rewrite N.pow_add_r.
  rewrite N.mod_mul_r by (pose proof (pow2_pos (8 * N.of_nat p)); lia).
  unfold digit. rewrite N.shiftr_div_pow2, N2Nat.id. reflexivity.
Qed.

Lemma digit_lt p k : digit p k < 256.
Proof. unfold digit. pose proof (N.mod_lt (N.shiftr k (8 * N.of_nat p)) 256 ltac:(lia)). lia. Qed.

Section Passes.
Context {T : Type}.
Variables (w : N) (key : T -> N).

Notation low p := (fun x : T => (key x mod 2 ^ (8 * N.of_nat p))%N).

Lemma stable_digit p l l1 l2 : stableSorted N.le (low p) l l1 -> stableSorted le (fun x => digit p (key x)) l1 l2 ->
  stableSorted N.le (low (S p)) l l2.
Proof.
  intros H1 H2. pose proof (stable_compose _ _ _ _ _ _ _ H1 H2) as H12.
  eapply stable_rekey; [| |exact H12]; cbn [fst snd].
  - intros x y _ _. cbv beta. rewrite !digit_split. pose proof (N.mod_lt (key x) (2 ^ (8 * N.of_nat p))). pose proof (N.mod_lt (key y) (2 ^ (8 * N.of_nat p))).
    pose proof (pow2_pos (8 * N.of_nat p)). revert H H0. generalize (key x mod 2 ^ (8 * N.of_nat p))%N, (key y mod 2 ^ (8 * N.of_nat p))%N.
    generalize (digit p (key x)), (digit p (key y)). intros a b u v Hu Hv. specialize (Hu ltac:(lia)). specialize (Hv ltac:(lia)).
    split; [intros [= -> ->]; reflexivity|]. intros He.
    assert (a = b).
    { apply Nat2N.inj. apply N.div_mod_unique with (b := (2 ^ (8 * N.of_nat p))%N) (r1 := u) (r2 := v); lia. }
    subst b. f_equal. lia.
  - intros x y _ _. cbv beta. rewrite !digit_split. pose proof (N.mod_lt (key x) (2 ^ (8 * N.of_nat p))). pose proof (N.mod_lt (key y) (2 ^ (8 * N.of_nat p))).
    pose proof (pow2_pos (8 * N.of_nat p)) as Hp. specialize (H ltac:(lia)). specialize (H0 ltac:(lia)).
    revert H H0. generalize (key x mod 2 ^ (8 * N.of_nat p))%N, (key y mod 2 ^ (8 * N.of_nat p))%N.
    generalize (digit p (key x)), (digit p (key y)). intros a b u v Hu Hv [[Hne Hle]|[-> Hle]]; [|lia].
    assert (Hab : (N.of_nat a + 1 <= N.of_nat b)%N) by lia.
    pose proof (N.mul_le_mono_l _ _ (2 ^ (8 * N.of_nat p)) Hab). lia.
Qed.

Lemma start_perm (d : T -> nat) l l' v : l ≡ₚ l' -> start d l v = start d l' v.
Proof.
  intros P. induction v as [|v IH]; [reflexivity|]. simpl. rewrite IH. unfold cnt. rewrite P. reflexivity.
Qed.

Lemma allCounts_ok src l m p : (N.of_nat (length l) <= 2 ^ w)%N -> holdsL src l ->
  exists cs, allCounts w key src (length l) p m = Ok cs /\ length cs = m /\
    forall j c, cs !! j = Some c -> countsAre w (start (fun x => digit (p + j) (key x)) l) c.
Proof.
  intros Hw Hs. revert p. induction m as [|m IH]; intros p; simpl; [exists []; split; [reflexivity|split; [reflexivity|]]; intros j c Hj; rewrite lookup_nil in Hj; discriminate|].
  destruct (histogram_ok w (fun x => digit p (key x)) l Hw (fun x _ => digit_lt _ _) src Hs) as (h & -> & Hh). rewrite bind_Ok.
  destruct (firstPos_ok w (fun x => digit p (key x)) l Hw h Hh) as (c & -> & Hc). rewrite bind_Ok.
  destruct (IH (S p)) as (cs & -> & Hl & Hcs). rewrite bind_Ok. eexists. split; [reflexivity|]. split; [simpl; lia|].
  intros [|j] c' Hj; simpl in Hj.
  - injection Hj as <-. rewrite Nat.add_0_r. exact Hc.
  - rewrite <- Nat.add_succ_comm. apply Hcs, Hj.
Qed.

Lemma passes_ok l cs : (N.of_nat (length l) <= 2 ^ w)%N -> forall p a b l1, stableSorted N.le (low p) l l1 ->
  holdsL a l1 -> length l <= length b ->
  (forall j c, cs !! j = Some c -> countsAre w (start (fun x => digit (p + j) (key x)) l) c) ->
  exists a' b' l', passes w key cs p (length l) a b = Ok (a', b', Nat.odd (length cs)) /\
    length a' = length a /\ length b' = length b /\
    drop (length l) a' = drop (length l) a /\ drop (length l) b' = drop (length l) b /\
    holdsL (if Nat.odd (length cs) then b' else a') l' /\ stableSorted N.le (low (p + length cs)) l l'.
Proof.
  intros Hw. induction cs as [|c cs IH]; intros p a b l1 Hst Ha Hb Hcs; simpl passes.
  - exists a, b, l1. simpl. rewrite Nat.add_0_r. auto 10.
  - assert (Hlen : length l1 = length l) by (apply Permutation_length, Hst).
    pose proof (Hcs 0 c eq_refl) as Hc. rewrite Nat.add_0_r in Hc.
    destruct (scatter_ok w (fun x => digit p (key x)) l1 ltac:(lia) (fun x _ => digit_lt _ _) a b c Ha ltac:(lia)) as (a1 & b1 & Hs & La & Lb & Da & Db & Hh).
    { destruct Hc as [HL Hc]. split; [exact HL|]. intros v Hv. rewrite Hc by exact Hv.
      rewrite (start_perm _ l l1) by (symmetry; apply Hst). reflexivity. }
    rewrite Hlen in Hs, Da, Db. rewrite Hs, bind_Ok.
    destruct (IH (S p) b1 a1 (buckets (fun x => digit p (key x)) l1 256)) as (b2 & a2 & l' & Hp & Lb2 & La2 & Db2 & Da2 & Hh2 & Hst2).
    + apply stable_digit with l1; [exact Hst|]. apply stable_buckets. intros. apply digit_lt.
    + exact Hh.
    + destruct Ha. lia.
    + intros j c' Hj. rewrite Nat.add_succ_comm. apply (Hcs (S j)), Hj.
    + rewrite Hp, bind_Ok. exists a2, b2, l'. simpl length. rewrite Nat.odd_succ, <- Nat.negb_odd.
      split; [reflexivity|]. split; [congruence|]. split; [congruence|]. split; [congruence|]. split; [congruence|].
      split; [destruct (Nat.odd (length cs)); exact Hh2|]. rewrite <- Nat.add_succ_comm. exact Hst2.
Qed.
End Passes.

(** What a sort has to do: [n] elements, the two arrays, and the order. *)
Definition sortsTo {T K} `{EqDecision K} (le : K -> K -> Prop) (key : T -> K) (l : list T) (a b : list (option T))
    (out : res (list (option T) * list (option T) * bool)) : Prop :=
  exists a' b' which l', out = Ok (a', b', which) /\ length a' = length a /\ length b' = length b /\
    drop (length l) a' = drop (length l) a /\ drop (length l) b' = drop (length l) b /\
    holdsL (if which then b' else a') l' /\ stableSorted le key l l'.

Lemma counterBits_ok n : (N.of_nat n <= 2 ^ 64)%N -> (N.of_nat n <= 2 ^ counterBits n)%N.
Proof.
  intros Hn. unfold counterBits. destruct (N.leb_spec (N.of_nat n) (2 ^ 8)); [assumption|].
  destruct (N.leb_spec (N.of_nat n) (2 ^ 16)); [assumption|]. destruct (N.leb_spec (N.of_nat n) (2 ^ 32)); assumption.
Qed.

Lemma sizedSort_ok {T} p (key : T -> N) l a b : (N.of_nat (length l) <= 2 ^ 64)%N ->
  (forall x, x ∈ l -> (key x < 2 ^ (8 * N.of_nat p))%N) -> holdsL a l -> length l <= length b ->
  exists a' b' l', sizedSort p key (length l) a b = Ok (a', b', Nat.odd p) /\ length a' = length a /\ length b' = length b /\
    drop (length l) a' = drop (length l) a /\ drop (length l) b' = drop (length l) b /\
    holdsL (if Nat.odd p then b' else a') l' /\ stableSorted N.le key l l'.
Proof.
  intros Hn Hk Ha Hb. unfold sizedSort. apply counterBits_ok in Hn.
  destruct (allCounts_ok _ key a l p 0 Hn Ha) as (cs & -> & Hlen & Hcs). rewrite bind_Ok.
  destruct (passes_ok _ key l cs Hn 0 a b l) as (a' & b' & l' & Hp & La & Lb & Da & Db & Hh & Hst).
  - eapply stable_rekey; [| |apply stable_unit]; cbv beta.
    + intros x y _ _. rewrite !N.mod_1_r. tauto.
    + intros x y _ _ _. rewrite !N.mod_1_r. lia.
  - exact Ha.
  - exact Hb.
  - exact Hcs.
  - rewrite Hlen in *. exists a', b', l'. repeat (split; [assumption|]).
    eapply stable_rekey; [| |exact Hst]; cbv beta; simpl.
    + intros x y Hx Hy. rewrite !N.mod_small by auto. tauto.
    + intros x y Hx Hy. rewrite !N.mod_small by auto. tauto.
Qed.

(** ** bool *)
Lemma boolSort_ok {T} (key : T -> bool) l a b : holdsL a l -> length l <= length b ->
  sortsTo (fun x y => x = true -> y = true) key l a b (boolSort key (length l) a b).
Proof.
  intros [HLa Ha] Hb. unfold boolSort.
  set (d := fun x => if key x then 1 else 0).
  destruct (for_inv (fun i s => s = cnt d 0 (take i l)) (fun i s => x <- getI a i ;; Ok (if key x then s else s + 1)) 0 (length l) 0) as (f & Hf & Ef).
  { lia. } { reflexivity. }
  { intros i s Hi ->. destruct (lookup_lt_is_Some_2 l i) as [x Hx]; [lia|].
    rewrite (getI_Some _ _ _ (Ha _ _ Hx)), bind_Ok. eexists. split; [reflexivity|].
    replace (i + 1) with (S i) by lia; rewrite (take_S_r _ _ _ Hx), cnt_snoc. assert (Dx : d x = if key x then 1 else 0) by reflexivity. rewrite Dx. destruct (key x); simpl; lia. }
  rewrite firstn_all in Ef. rewrite Hf, bind_Ok. clear Hf. subst f.
  assert (Hd : forall x, x ∈ l -> d x < 2) by (intros x _; unfold d; destruct (key x); lia).
  assert (Hall : start d l 2 = length l) by (apply start_all, Hd).
  assert (H01 : start d l 0 = 0 /\ start d l 1 = cnt d 0 l) by (split; reflexivity). destruct H01 as [S0 S1].
  assert (Htk : forall v i, cnt d v (take i l) <= cnt d v l).
  { intros v i. unfold cnt. rewrite <- (take_drop i l) at 2. rewrite filter_app, app_length. lia. }
  destruct (for_inv (fun i (st : list (option T) * list (option T) * nat * nat) => let '(s, t, tp, fc) := st in
      length s = length a /\ length t = length b /\
      (forall j, i <= j -> s !! j = a !! j) /\ (forall j, length l <= j -> t !! j = b !! j) /\
      tp = start d l 1 + cnt d 1 (take i l) /\ fc = cnt d 0 (take i l) /\
      (forall v q, v < 2 -> q < cnt d v (take i l) -> t !! (start d l v + q) = Some (filter (fun x => d x = v) (take i l) !! q)))
    (fun i '(a, b, tp, fc) => x <- getI a i ;; b <- set_ b (if key x then tp else fc) (Some x) ;; a <- set_ a i None ;;
      Ok (if key x then (a, b, tp + 1, fc) else (a, b, tp, fc + 1)))
    0 (length l) (a, b, cnt d 0 l, 0)) as ([[[s t] tp] fc] & Hr & Ls & Lt & Hs & Ht & Htp & Hfc & Hv).
  - lia.
  - rewrite take_0. do 4 (split; [solve [auto]|]). split; [rewrite S1; change (cnt d 1 []) with 0; lia|]. split; [reflexivity|].
    intros v q _ Hq. unfold cnt in Hq. simpl in Hq. lia.
  - intros i [[[s t] tp] fc] Hi (Ls & Lt & Hs & Ht & -> & -> & Hv).
    destruct (lookup_lt_is_Some_2 l i) as [x Hx]; [lia|].
    assert (Hxd : d x < 2) by (apply Hd; eapply elem_of_list_lookup_2; eauto).
    pose proof (cnt_take_lt d l i x Hx) as Hlt.
    pose proof (start_cnt d l (d x) 2 Hxd) as Hsc.
    rewrite (getI_Some s i x) by (rewrite Hs by lia; apply Ha, Hx). rewrite bind_Ok.
    assert (Epos : (if key x then start d l 1 + cnt d 1 (take i l) else cnt d 0 (take i l)) = start d l (d x) + cnt d (d x) (take i l)).
    { assert (Dx : d x = if key x then 1 else 0) by reflexivity. rewrite Dx. destruct (key x); [reflexivity|]. rewrite S0. lia. }
    rewrite Epos, set_Ok by lia. rewrite bind_Ok, set_Ok by lia. rewrite bind_Ok.
    eexists. split; [reflexivity|]. replace (i + 1) with (S i) by lia; rewrite (take_S_r _ _ _ Hx).
    assert (Hgoal : forall tp fc, tp = start d l 1 + cnt d 1 (take i l ++ [x]) -> fc = cnt d 0 (take i l ++ [x]) ->
      length (<[i:=None]> s) = length a /\ length (<[start d l (d x) + cnt d (d x) (take i l):=Some x]> t) = length b /\
      (forall j, S i <= j -> <[i:=None]> s !! j = a !! j) /\
      (forall j, length l <= j -> <[start d l (d x) + cnt d (d x) (take i l):=Some x]> t !! j = b !! j) /\
      tp = start d l 1 + cnt d 1 (take i l ++ [x]) /\ fc = cnt d 0 (take i l ++ [x]) /\
      (forall v q, v < 2 -> q < cnt d v (take i l ++ [x]) ->
        <[start d l (d x) + cnt d (d x) (take i l):=Some x]> t !! (start d l v + q) =
        Some (filter (fun y => d y = v) (take i l ++ [x]) !! q))).
    { intros tp fc Etp Efc. rewrite !insert_length. split; [exact Ls|]. split; [exact Lt|]. split; [|split; [|split; [exact Etp|split; [exact Efc|]]]].
      + intros j Hj. rewrite list_lookup_insert_ne by lia. apply Hs. lia.
      + intros j Hj. rewrite list_lookup_insert_ne by lia. apply Ht, Hj.
      + intros v q Hv' Hq. rewrite cnt_snoc in Hq.
        rewrite filter_app, filter_cons, filter_nil. destruct (decide (d x = v)) as [Ev|Ev].
        * rewrite (proj2 (Nat.eqb_eq _ _) Ev) in Hq. destruct (decide (q = cnt d v (take i l))) as [->|Hne].
          -- subst v. rewrite list_lookup_insert by lia. unfold cnt. rewrite list_lookup_middle; reflexivity.
          -- rewrite list_lookup_insert_ne by (subst v; lia). rewrite Hv by lia. rewrite lookup_app_l by (unfold cnt in *; lia). reflexivity.
        * rewrite (proj2 (Nat.eqb_neq _ _) Ev), Nat.add_0_r in Hq. rewrite list_lookup_insert_ne.
          -- rewrite app_nil_r. apply Hv; assumption.
          -- intros Hcl. apply start_uniq in Hcl as [Hcl _]; [congruence|exact Hlt|].
             specialize (Htk v i). lia. }
    assert (Dx : d x = if key x then 1 else 0) by reflexivity.
    destruct (key x) eqn:Ek; apply Hgoal; rewrite cnt_snoc, Dx; simpl; lia.
  - rewrite Hr, bind_Ok. exists s, t, true, (buckets d l 2). split; [reflexivity|]. split; [exact Ls|]. split; [exact Lt|].
    split; [|split; [|split; [split|]]].
    + apply list_eq. intros j. rewrite !lookup_drop. apply Hs. lia.
    + apply list_eq. intros j. rewrite !lookup_drop. apply Ht. lia.
    + rewrite buckets_length, Hall. lia.
    + intros j x Hx. pose proof (lookup_lt_Some _ _ _ Hx) as Hj. rewrite buckets_length in Hj.
      apply start_split in Hj as (v & q & Hv' & Hq & ->). rewrite buckets_lookup in Hx by assumption.
      rewrite firstn_all in Hv. rewrite Hv by assumption. rewrite Hx. reflexivity.
    + eapply stable_rekey; [| |apply (stable_buckets d), Hd]; unfold d; intros x y _ _; destruct (key x), (key y); try tauto; try lia;
        split; intros; congruence.
Qed.
