(** Proofs about splitting a matrix into blocks. *)
From stdpp Require Import numbers list_numbers.
From Coq Require Import ZArith.
From Verif Require Import KernelBase BaseProofs ConcProofs McaProofs WorkProofs ComplProofs TriProofs PropHeapCsc PropReport.
From Verif Require Import BlockSpec.
From Verif Require Import Base Spec.
Local Open Scope list_scope.

(** Sums in a commutative monoid. *)
Section Msum.
Context {M : Type} (op : M -> M -> M) (e : M) (Hc : forall a b, op a b = op b a) (Ha : forall a b c, op a (op b c) = op (op a b) c) (He : forall a, op e a = a).
Definition msum {X} (l : list X) (f : X -> M) : M := foldr op e (f <$> l).
Lemma msum_nil {X} (f : X -> M) : msum [] f = e. Proof. reflexivity. Qed.
Lemma msum_cons {X} x l (f : X -> M) : msum (x :: l) f = op (f x) (msum l f). Proof. reflexivity. Qed.
Lemma msum_ext {X} l (f g : X -> M) : (forall x, x ∈ l -> f x = g x) -> msum l f = msum l g.
Proof. induction l as [|x l IH]; intros H; [reflexivity|]. rewrite !msum_cons, H, IH by (try (intros; apply H); constructor; assumption || fail). reflexivity. Qed.
Lemma msum_app {X} l l' (f : X -> M) : msum (l ++ l') f = op (msum l f) (msum l' f).
Proof. induction l as [|x l IH]; [simpl; rewrite msum_nil, He; reflexivity|]. rewrite <- app_comm_cons, !msum_cons, IH, Ha. reflexivity. Qed.
Lemma msum_mjoin {X Y} (h : X -> list Y) l (f : Y -> M) : msum (mjoin (h <$> l)) f = msum l (fun x => msum (h x) f).
Proof. induction l as [|x l IH]; [reflexivity|]. rewrite fmap_cons, mjoin_cons, msum_app, IH, msum_cons. reflexivity. Qed.
Lemma msum_fmap {X Y} (h : X -> Y) l (f : Y -> M) : msum (h <$> l) f = msum l (fun x => f (h x)).
Proof. unfold msum. rewrite <- list_fmap_compose. reflexivity. Qed.
Lemma msum_op {X} l (f g : X -> M) : msum l (fun x => op (f x) (g x)) = op (msum l f) (msum l g).
Proof. induction l as [|x l IH]; [symmetry; apply He|]. rewrite !msum_cons, IH, !Ha. f_equal. rewrite <- !Ha. f_equal. apply Hc. Qed.
Lemma msum_e {X} (l : list X) : msum l (fun _ => e) = e.
Proof. induction l as [|x l IH]; [reflexivity|]. rewrite msum_cons, IH. apply He. Qed.
Lemma msum_swap {X Y} (l : list X) (l' : list Y) (f : X -> Y -> M) : msum l (fun x => msum l' (f x)) = msum l' (fun y => msum l (fun x => f x y)).
Proof. induction l as [|x l IH]; [symmetry; apply msum_e|]. rewrite msum_cons, IH, <- msum_op. reflexivity. Qed.
End Msum.
Definition zs {X} := @msum Z Z.add 0%Z X.
Definition nsum {X} := @msum nat Nat.add 0 X.
Lemma nsum_list {X} (l : list X) f : sum_list (f <$> l) = nsum l f.
Proof. induction l as [|x l IH]; [reflexivity|]. unfold nsum in *. rewrite msum_cons, <- IH. reflexivity. Qed.
Lemma zsum_list {X} (l : list X) f : zsum (f <$> l) = zs l f. Proof. reflexivity. Qed.
(** The three loops. *)
Definition zs_ext {X} := @msum_ext Z Z.add 0%Z X.
Definition zs_mjoin {X Y} := @msum_mjoin Z Z.add 0%Z Z.add_assoc Z.add_0_l X Y.
Definition zs_swap {X Y} := @msum_swap Z Z.add 0%Z Z.add_comm Z.add_assoc Z.add_0_l X Y.
Definition nsum_ext {X} := @msum_ext nat Nat.add 0 X.
Definition nsum_mjoin {X Y} := @msum_mjoin nat Nat.add 0 Nat.add_assoc Nat.add_0_l X Y.
Definition nsum_swap {X Y} := @msum_swap nat Nat.add 0 Nat.add_comm Nat.add_assoc Nat.add_0_l X Y.

(** ** Offsets *)
Lemma boff_S ns i : boff ns (S i) = boff ns i + bsize ns i.
Proof.
  unfold boff, bsize. revert i. induction ns as [|n ns IH]; intros [|i]; [reflexivity..| |].
  - simpl. destruct ns; simpl; lia.
  - simpl take. specialize (IH i). change (sum_list (n :: take (S i) ns)) with (n + sum_list (take (S i) ns)). change (sum_list (n :: take i ns)) with (n + sum_list (take i ns)).
    change ((n :: ns) !! S i) with (ns !! i). lia.
Qed.
Lemma boff_all ns : boff ns (length ns) = sum_list ns. Proof. unfold boff. rewrite firstn_all. reflexivity. Qed.
Lemma boff_mono ns i j : i <= j -> boff ns i <= boff ns j.
Proof. induction 1; [lia|]. rewrite boff_S. lia. Qed.
Lemma boff_lt ns i r m : i < m -> r < bsize ns i -> boff ns i + r < boff ns m.
Proof. intros H Hr. pose proof (boff_mono ns (S i) m H) as Hm. rewrite boff_S in Hm. lia. Qed.
Lemma boff_inj ns i r j c : r < bsize ns i -> c < bsize ns j -> boff ns i + r = boff ns j + c -> i = j /\ r = c.
Proof.
  intros Hr Hc E. destruct (Nat.lt_trichotomy i j) as [H|[H|H]].
  - pose proof (boff_lt ns i r j H Hr). lia.
  - subst j. split; [reflexivity|lia].
  - pose proof (boff_lt ns j c i H Hc). lia.
Qed.
Lemma seq_blocks ns m : seq 0 (boff ns m) = mjoin ((fun i => (fun r => boff ns i + r) <$> seq 0 (bsize ns i)) <$> seq 0 m).
Proof.
  induction m as [|m IH]; [unfold boff; rewrite take_0; reflexivity|]. rewrite boff_S, seq_app, IH, seq_S, fmap_app, mjoin_app. f_equal.
  simpl. rewrite app_nil_r. etransitivity; [|symmetry; apply (fmap_add_seq (boff ns m) 0)]; rewrite Nat.add_0_r; reflexivity.
Qed.
Lemma locate ns m x : x < boff ns m -> exists k y, k < m /\ y < bsize ns k /\ x = boff ns k + y.
Proof.
  intros H. assert (Hx : x ∈ seq 0 (boff ns m)) by (apply elem_of_seq; lia). rewrite seq_blocks in Hx.
  apply elem_of_list_join in Hx as (l & Hx & Hl). apply elem_of_list_fmap in Hl as (k & -> & Hk). apply elem_of_list_fmap in Hx as (y & -> & Hy).
  apply elem_of_seq in Hk, Hy. exists k, y. repeat split; lia.
Qed.

(** ** Lists with distinct keys *)
Lemma filter_key_in {V} (l : list (nat * V)) x v : NoDup (fst <$> l) -> (x, v) ∈ l -> filter (fun e => fst e = x) l = [(x, v)].
Proof.
  induction l as [|[y u] l IH]; intros Hn Hin; [inversion Hin|]. rewrite fmap_cons in Hn. apply NoDup_cons in Hn as [Hy Hn]. simpl in Hy.
  apply elem_of_cons in Hin as [E|Hin].
  - injection E as <- <-. rewrite filter_cons_True by reflexivity. f_equal. clear -Hy. induction l as [|[y u] l IH]; [reflexivity|].
    rewrite fmap_cons, elem_of_cons in Hy. rewrite filter_cons_False; [apply IH; tauto|]. simpl in *. intros ->. tauto.
  - assert (x <> y) by (intros ->; apply Hy, elem_of_list_fmap; exists (y, v); auto). rewrite filter_cons_False by (simpl; congruence). auto.
Qed.
Lemma filter_key_out {V} (l : list (nat * V)) x : x ∉ (fst <$> l) -> filter (fun e => fst e = x) l = [].
Proof.
  induction l as [|[y u] l IH]; intros H; [reflexivity|]. rewrite fmap_cons, elem_of_cons in H. rewrite filter_cons_False; [apply IH; tauto|]. simpl in *. intros ->. tauto.
Qed.

(** ** The sum of a masked row *)
Lemma zfold l x : fold_left Z.add l x = (x + zsum l)%Z.
Proof. revert x. induction l as [|y l IH]; intros x; simpl; [lia|]. rewrite IH. unfold zsum. simpl. lia. Qed.
Lemma masked_sum mul arow brow l : zsum (snd <$> masked_row mul Z.add arow brow l) = zs l (fun c => zsum (products mul arow brow c)).
Proof.
  unfold masked_row, entry. induction l as [|c l IH]; [reflexivity|]. unfold zs. rewrite msum_cons. fold (@zs nat). rewrite <- IH. cbn [omap list_omap].
  destruct (products mul arow brow c) as [|x xs] eqn:E; [reflexivity|]. cbn [sum1 fmap option_fmap option_map]. rewrite fmap_cons. cbn [snd]. rewrite zfold. reflexivity.
Qed.
Lemma masked_length {V} (mul add : V -> V -> V) arow brow l :
  length (masked_row mul add arow brow l) = nsum l (fun c => if products mul arow brow c then 0 else 1).
Proof.
  unfold masked_row, entry. induction l as [|c l IH]; [reflexivity|]. unfold nsum. rewrite msum_cons. fold (@nsum nat). rewrite <- IH. cbn [omap list_omap].
  destruct (products mul arow brow c) as [|x xs]; reflexivity.
Qed.

Section Blocks.
Context (A : csr Z) (ns : list nat) (S_ : nat -> nat -> csr Z).
Notation g := (length ns).
Context (HA : squareOf A ns) (HS : forall i j, i < g -> j < g -> is_block A ns i j (S_ i j)).
Let n := sum_list ns.

Lemma A_range i c v : (c, v) ∈ row_entries A i -> c < n.
Proof. intros H. destruct HA as (Hw & _ & _ & Hc). unfold n. rewrite <- Hc. apply (row_cols_range A i); [exact Hw|]. apply elem_of_list_fmap. exists (c, v). auto. Qed.
Lemma row_blocks i r : i < g -> r < bsize ns i ->
  row_entries A (boff ns i + r) = mjoin ((fun j => (fun e : nat * Z => (boff ns j + fst e, snd e)) <$> row_entries (S_ i j) r) <$> seq 0 g).
Proof.
  intros Hi Hr. apply sorted_pairs_eq.
  - destruct HA as (_ & Hs & Hrow & _). apply Hs. rewrite Hrow, <- boff_all. apply boff_lt; [exact Hi|exact Hr].
  - assert (G : forall m, m <= g -> StronglySorted lt (fst <$> mjoin ((fun j => (fun e : nat * Z => (boff ns j + fst e, snd e)) <$> row_entries (S_ i j) r) <$> seq 0 m)) /\
      Forall (fun x => x < boff ns m) (fst <$> mjoin ((fun j => (fun e : nat * Z => (boff ns j + fst e, snd e)) <$> row_entries (S_ i j) r) <$> seq 0 m))).
    { induction m as [|m IH]; intros Hm; [split; constructor|]. destruct (IH ltac:(lia)) as [I1 I2]. pose proof (HS i m Hi ltac:(lia)) as B.
      rewrite seq_S, fmap_app, mjoin_app, fmap_app. simpl. rewrite app_nil_r.
      assert (E : fst <$> ((fun e : nat * Z => (boff ns m + fst e, snd e)) <$> row_entries (S_ i m) r) = (fun c => boff ns m + c) <$> row_cols (S_ i m) r).
      { unfold row_cols. rewrite <- !list_fmap_compose. reflexivity. }
      rewrite E. assert (F : Forall (fun x => boff ns m <= x < boff ns (S m)) ((fun c => boff ns m + c) <$> row_cols (S_ i m) r)).
      { apply Forall_fmap, Forall_forall. intros c Hc. apply elem_of_list_fmap in Hc as ([c' v] & -> & Hc). apply (bl_el A ns i m (S_ i m) B) in Hc as [Hc _]; [|exact Hr].
        simpl. rewrite boff_S. lia. }
      split.
      - clear IH. assert (I3 : StronglySorted lt ((fun c => boff ns m + c) <$> row_cols (S_ i m) r)).
        { pose proof (bl_sorted A ns i m _ B r) as Hs. rewrite (bl_rows A ns i m _ B) in Hs. specialize (Hs Hr). clear -Hs.
          induction Hs as [|x l Hl IH Hx]; [constructor|]. rewrite fmap_cons. constructor; [exact IH|]. apply Forall_fmap. eapply Forall_impl; [exact Hx|]. intros y Hy. simpl in *. lia. }
        clear -I1 I2 I3 F. induction I1 as [|x l Hl IH Hx]; [exact I3|]. inversion I2; subst. simpl. constructor; [auto|]. apply Forall_app. split; [exact Hx|].
        eapply Forall_impl; [exact F|]. intros y Hy. simpl in *. lia.
      - apply Forall_app. split; [|eapply Forall_impl; [exact F|]; intros y Hy; simpl in *; lia].
        eapply Forall_impl; [exact I2|]. intros y Hy. simpl in *. rewrite boff_S. lia. }
    apply G. lia.
  - intros [x v]. rewrite elem_of_list_join. split.
    + intros H. pose proof (A_range _ _ _ H) as Hx. unfold n in Hx. rewrite <- boff_all in Hx. destruct (locate ns g x Hx) as (j & c & Hj & Hc & ->).
      eexists. split; [|apply elem_of_list_fmap; exists j; split; [reflexivity|apply elem_of_seq; lia]].
      apply elem_of_list_fmap. exists (c, v). split; [reflexivity|]. apply (bl_el A ns i j _ (HS i j Hi Hj)); [exact Hr|]. auto.
    + intros (l & H & Hl). apply elem_of_list_fmap in Hl as (j & -> & Hj). apply elem_of_seq in Hj. apply elem_of_list_fmap in H as ([c u] & E & H). injection E as -> ->.
      apply (bl_el A ns i j _ (HS i j Hi ltac:(lia))) in H; [|exact Hr]. apply H.
Qed.
Lemma block_nodup i j r : i < g -> j < g -> r < bsize ns i -> NoDup (row_cols (S_ i j) r).
Proof. intros Hi Hj Hr. pose proof (HS i j Hi Hj) as B. apply SSorted_NoDup, (bl_sorted A ns i j _ B). rewrite (bl_rows A ns i j _ B). exact Hr. Qed.
Lemma A_nodup i r : i < g -> r < bsize ns i -> NoDup (row_cols A (boff ns i + r)).
Proof. intros Hi Hr. destruct HA as (_ & Hs & Hrow & _). apply SSorted_NoDup, Hs. rewrite Hrow, <- boff_all. apply boff_lt; [exact Hi|exact Hr]. Qed.
Lemma row_cols_blocks i r : i < g -> r < bsize ns i ->
  row_cols A (boff ns i + r) = mjoin ((fun j => (fun c => boff ns j + c) <$> row_cols (S_ i j) r) <$> seq 0 g).
Proof.
  intros Hi Hr. unfold row_cols. rewrite (row_blocks i r Hi Hr). induction (seq 0 g) as [|j l IH]; [reflexivity|].
  rewrite !fmap_cons, !mjoin_cons, fmap_app, IH, <- !list_fmap_compose. reflexivity.
Qed.
Lemma block_range i j r c : i < g -> j < g -> r < bsize ns i -> c ∈ row_cols (S_ i j) r -> c < bsize ns j.
Proof. intros Hi Hj Hr H. apply elem_of_list_fmap in H as ([c' v] & -> & H). apply (bl_el A ns i j _ (HS i j Hi Hj)) in H; [|exact Hr]. apply H. Qed.
Lemma block_cols i j r c : i < g -> j < g -> r < bsize ns i -> c ∈ row_cols (S_ i j) r <-> c < bsize ns j /\ boff ns j + c ∈ row_cols A (boff ns i + r).
Proof.
  intros Hi Hj Hr. pose proof (bl_el A ns i j _ (HS i j Hi Hj)) as E. split.
  - intros H. apply elem_of_list_fmap in H as ([c' v] & -> & H). apply E in H as [H1 H2]; [|exact Hr]. split; [exact H1|]. apply elem_of_list_fmap. exists (boff ns j + c', v). auto.
  - intros [Hc H]. apply elem_of_list_fmap in H as ([x v] & E' & H). simpl in E'. subst x. apply elem_of_list_fmap. exists (c, v). split; [reflexivity|]. apply E; auto.
Qed.
Lemma filter_blocks i j r c : i < g -> j < g -> r < bsize ns i -> c < bsize ns j ->
  snd <$> filter (fun e => fst e = boff ns j + c) (row_entries A (boff ns i + r)) = snd <$> filter (fun e => fst e = c) (row_entries (S_ i j) r).
Proof.
  intros Hi Hj Hr Hc. destruct (decide (c ∈ row_cols (S_ i j) r)) as [H|H].
  - apply elem_of_list_fmap in H as ([c' v] & E & H). simpl in E. subst c'. rewrite (filter_key_in _ c v); [|apply block_nodup; assumption|exact H].
    rewrite (filter_key_in _ (boff ns j + c) v); [reflexivity|apply A_nodup; assumption|]. apply (bl_el A ns i j _ (HS i j Hi Hj)) in H; [|exact Hr]. apply H.
  - rewrite filter_key_out by (intros H'; apply H, block_cols; auto). rewrite filter_key_out by exact H. reflexivity.
Qed.
Lemma products_blocks i j r c : i < g -> j < g -> r < bsize ns i -> c < bsize ns j ->
  products Z.mul (row_entries A (boff ns i + r)) (row_entries A) (boff ns j + c) =
  mjoin ((fun k => products Z.mul (row_entries (S_ i k) r) (row_entries (S_ k j)) c) <$> seq 0 g).
Proof.
  intros Hi Hj Hr Hc. unfold products at 1. rewrite (row_blocks i r Hi Hr). assert (Hl : forall k, k ∈ seq 0 g -> k < g) by (intros k Hk; apply elem_of_seq in Hk; lia).
  revert Hl. generalize (seq 0 g). intros l Hl. induction l as [|k l IH]; [reflexivity|]. rewrite !fmap_cons, !mjoin_cons, fmap_app, mjoin_app. rewrite IH by (intros k' Hk'; apply Hl; right; exact Hk').
  f_equal. unfold products. rewrite <- list_fmap_compose. f_equal. pose proof (Hl k ltac:(left)) as Hk. apply list_fmap_ext. intros x [y a] Hx. apply elem_of_list_lookup_2 in Hx. simpl.
  assert (Hy : y < bsize ns k) by (apply (block_range i k r); auto; apply elem_of_list_fmap; exists (y, a); auto).
  pose proof (filter_blocks k j y c Hk Hj Hy Hc) as E. apply (f_equal (fmap (Z.mul a))) in E. rewrite <- !list_fmap_compose in E. exact E.
Qed.

(** ** The three totals *)
Definition cellTri i j k : Z := zs (seq 0 (bsize ns i)) (fun r => zsum (snd <$> spec_row Z.mul Z.add (S_ i k) (S_ k j) (S_ i j) r)).
Lemma zsum_mjoin {X} (f : X -> list Z) l : zsum (mjoin (f <$> l)) = zs l (fun x => zsum (f x)).
Proof. induction l as [|x l IH]; [reflexivity|]. rewrite fmap_cons, mjoin_cons, zsum_app, IH. reflexivity. Qed.
Lemma tri_blocks : zs (seq 0 n) (fun R => zsum (snd <$> spec_row Z.mul Z.add A A A R)) =
  zs (seq 0 g) (fun i => zs (seq 0 g) (fun j => zs (seq 0 g) (fun k => cellTri i j k))).
Proof.
  unfold n. rewrite <- boff_all, seq_blocks. unfold zs at 1. rewrite zs_mjoin. fold (@zs nat). apply zs_ext. intros i Hi. apply elem_of_seq in Hi.
  unfold cellTri.
  transitivity (zs (seq 0 (bsize ns i)) (fun r => zs (seq 0 g) (fun j => zs (seq 0 g) (fun k => zsum (snd <$> spec_row Z.mul Z.add (S_ i k) (S_ k j) (S_ i j) r))))).
  - rewrite msum_fmap. apply zs_ext. intros r Hr. apply elem_of_seq in Hr. unfold spec_row at 1. rewrite masked_sum, row_cols_blocks by lia. unfold zs at 1. rewrite zs_mjoin. apply zs_ext.
    intros j Hj. apply elem_of_seq in Hj. rewrite msum_fmap. fold (@zs nat).
    transitivity (zs (row_cols (S_ i j) r) (fun c => zs (seq 0 g) (fun k => zsum (products Z.mul (row_entries (S_ i k) r) (row_entries (S_ k j)) c)))).
    + apply zs_ext. intros c Hc. rewrite products_blocks; [apply zsum_mjoin|lia..|]. eapply block_range; [| | |exact Hc]; lia.
    + unfold zs. rewrite zs_swap. apply zs_ext. intros k Hk. unfold spec_row. rewrite masked_sum. reflexivity.
  - unfold zs. rewrite zs_swap. apply zs_ext. intros j Hj. rewrite zs_swap. reflexivity.
Qed.

Definition hasProd i j k r c : nat := if products Z.mul (row_entries (S_ i k) r) (row_entries (S_ k j)) c then 0 else 1.
Lemma through_prod i j k r c : i < g -> j < g -> k < g -> r < bsize ns i -> c < bsize ns j ->
  hasProd i j k r c = if through A (boff ns k) (bsize ns k) (boff ns i + r, boff ns j + c) then 1 else 0.
Proof.
  intros Hi Hj Hk Hr Hc. unfold hasProd. destruct (through _ _ _ _) eqn:E.
  - unfold through in E. apply existsb_exists in E as (K & HK & E). apply elem_of_list_In, elem_of_seq in HK. simpl in E. apply andb_true_iff in E as [E1 E2].
    apply bool_decide_eq_true in E1, E2. destruct (products _ _ _ _) eqn:P; [|reflexivity]. exfalso.
    assert (HK1 : K - boff ns k ∈ row_cols (S_ i k) r) by (apply block_cols; auto; split; [lia|]; replace (boff ns k + (K - boff ns k)) with K by lia; exact E1).
    assert (HK2 : c ∈ row_cols (S_ k j) (K - boff ns k)) by (apply block_cols; auto; [lia|]; split; [exact Hc|]; replace (boff ns k + (K - boff ns k)) with K by lia; exact E2).
    apply elem_of_list_fmap in HK1 as ([y a] & Ey & H1). apply elem_of_list_fmap in HK2 as ([y2 b] & Ey2 & H2). simpl in Ey, Ey2. subst y y2.
    assert (HP : (a * b)%Z ∈ products Z.mul (row_entries (S_ i k) r) (row_entries (S_ k j)) c).
    { unfold products. apply elem_of_list_join. eexists. split; [|apply elem_of_list_fmap; eexists; split; [reflexivity|exact H1]].
      apply elem_of_list_fmap. exists (c, b). split; [reflexivity|]. apply elem_of_list_filter. auto. }
    rewrite P in HP. inversion HP.
  - destruct (products _ _ _ _) as [|p ps] eqn:P; [reflexivity|]. exfalso.
    assert (HP : p ∈ products Z.mul (row_entries (S_ i k) r) (row_entries (S_ k j)) c) by (rewrite P; left). unfold products in HP.
    apply elem_of_list_join in HP as (l & Hp & Hl). apply elem_of_list_fmap in Hl as ([y a] & -> & H1). apply elem_of_list_fmap in Hp as ([c' b] & _ & H2). apply elem_of_list_filter in H2 as [E2 H2].
    simpl in E2, H2. subst c'. assert (Hy : y ∈ row_cols (S_ i k) r) by (apply elem_of_list_fmap; exists (y, a); auto). pose proof (block_range i k r y Hi Hk Hr Hy) as Hyb.
    assert (Hcy : c ∈ row_cols (S_ k j) y) by (apply elem_of_list_fmap; exists (c, b); auto). apply block_cols in Hy as [_ Hy]; auto. apply block_cols in Hcy as [_ Hcy]; auto.
    assert (X : through A (boff ns k) (bsize ns k) (boff ns i + r, boff ns j + c) = true); [|congruence].
    unfold through. apply existsb_exists. exists (boff ns k + y). split; [apply elem_of_list_In, elem_of_seq; lia|]. simpl. apply andb_true_iff. split; apply bool_decide_eq_true; assumption.
Qed.
Lemma filter_length {X} (p : X -> bool) l : length (filter (fun x => p x = true) l) = nsum l (fun x => if p x then 1 else 0).
Proof.
  induction l as [|x l IH]; [reflexivity|]. unfold nsum. rewrite msum_cons. fold (@nsum X). rewrite <- IH. destruct (p x) eqn:E.
  - rewrite filter_cons_True by exact E. reflexivity.
  - rewrite filter_cons_False by congruence. reflexivity.
Qed.
Definition cellMasked i j k : nat := nsum (seq 0 (bsize ns i)) (fun r => nsum (row_cols (S_ i j) r) (hasProd i j k r)).
Definition cellNnz i j k : nat := nsum (seq 0 (bsize ns i)) (fun r => nsum (seq 0 (bsize ns j)) (hasProd i j k r)).
Lemma masked_blocks k : k < g -> length (filter (fun x => through A (boff ns k) (bsize ns k) x = true) (positions A)) = nsum (seq 0 g) (fun i => nsum (seq 0 g) (fun j => cellMasked i j k)).
Proof.
  intros Hk. rewrite filter_length. unfold positions. destruct HA as (_ & _ & Hr & _). rewrite Hr, <- boff_all, seq_blocks.
  unfold nsum at 1. rewrite !nsum_mjoin. apply nsum_ext. intros i Hi. apply elem_of_seq in Hi. rewrite msum_fmap. unfold cellMasked.
  unfold nsum. rewrite nsum_swap. apply nsum_ext. intros r Hrr. apply elem_of_seq in Hrr. rewrite msum_fmap, row_cols_blocks by lia. rewrite nsum_mjoin. apply nsum_ext.
  intros j Hj. apply elem_of_seq in Hj. rewrite msum_fmap. apply nsum_ext. intros c Hc. symmetry. apply through_prod; try lia. eapply block_range; [| | |exact Hc]; lia.
Qed.
Lemma nnz_blocks k : k < g -> length (filter (fun x => through A (boff ns k) (bsize ns k) x = true) (list_prod (seq 0 n) (seq 0 n))) = nsum (seq 0 g) (fun i => nsum (seq 0 g) (fun j => cellNnz i j k)).
Proof.
  intros Hk. rewrite filter_length.
  assert (G : forall (l l' : list nat) f, nsum (list_prod l l') f = nsum l (fun R => nsum l' (fun C => f (R, C)))).
  { intros l l' f. induction l as [|x l IH]; [reflexivity|]. simpl list_prod. unfold nsum. rewrite msum_app by lia. fold (@nsum (nat * nat)). rewrite IH, msum_cons. f_equal. apply (msum_fmap Nat.add 0 (fun y => (x, y)) l'). }
  rewrite G. unfold n. rewrite <- boff_all, seq_blocks. unfold nsum at 1. rewrite nsum_mjoin. apply nsum_ext. intros i Hi. apply elem_of_seq in Hi. rewrite msum_fmap. unfold cellNnz.
  unfold nsum. rewrite (nsum_swap (seq 0 g)). apply nsum_ext. intros r Hr. apply elem_of_seq in Hr. rewrite nsum_mjoin. apply nsum_ext.
  intros j Hj. apply elem_of_seq in Hj. rewrite msum_fmap. apply nsum_ext. intros c Hc. apply elem_of_seq in Hc. symmetry. apply through_prod; lia.
Qed.

Definition cellFlops i j k : nat := nsum (seq 0 (bsize ns i)) (fun r => nprods (S_ i k) (S_ k j) r).
Lemma nprods_nsum {V} (X Y : csr V) r : nprods X Y r = nsum (row_entries X r) (fun e => length (row_entries Y (fst e))).
Proof. unfold nprods. rewrite <- nsum_list. reflexivity. Qed.
Lemma length_mjoin_nsum {X Y} (f : X -> list Y) l : length (mjoin (f <$> l)) = nsum l (fun x => length (f x)).
Proof. induction l as [|x l IH]; [reflexivity|]. rewrite fmap_cons, mjoin_cons, app_length, IH. reflexivity. Qed.
Lemma flops_blocks : nsum (seq 0 n) (fun R => nprods A A R) = nsum (seq 0 g) (fun i => nsum (seq 0 g) (fun j => nsum (seq 0 g) (fun k => cellFlops i j k))).
Proof.
  unfold n. rewrite <- boff_all, seq_blocks. unfold nsum at 1. rewrite nsum_mjoin. apply nsum_ext. intros i Hi. apply elem_of_seq in Hi. rewrite msum_fmap. unfold cellFlops.
  transitivity (nsum (seq 0 (bsize ns i)) (fun r => nsum (seq 0 g) (fun j => nsum (seq 0 g) (fun k => nprods (S_ i k) (S_ k j) r)))).
  - apply nsum_ext. intros r Hr. apply elem_of_seq in Hr. rewrite nprods_nsum, row_blocks by lia. unfold nsum. rewrite nsum_mjoin, (nsum_swap (seq 0 g) (seq 0 g)). apply nsum_ext.
    intros k Hk. apply elem_of_seq in Hk. rewrite msum_fmap. simpl.
    transitivity (nsum (row_entries (S_ i k) r) (fun e => nsum (seq 0 g) (fun j => length (row_entries (S_ k j) (fst e))))).
    + apply nsum_ext. intros [y a] He. simpl. rewrite row_blocks, length_mjoin_nsum; [|lia|].
      * apply nsum_ext. intros j _. rewrite fmap_length. reflexivity.
      * eapply (block_range i k r); [lia..|]. apply elem_of_list_fmap. exists (y, a). auto.
    + unfold nsum. rewrite nsum_swap. apply nsum_ext. intros j _. rewrite nprods_nsum. reflexivity.
  - unfold nsum. rewrite nsum_swap. apply nsum_ext. intros j Hj. rewrite nsum_swap. reflexivity.
Qed.
End Blocks.
