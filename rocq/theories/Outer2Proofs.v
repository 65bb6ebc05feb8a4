(** OuterSpGEMM of outer_mult2.h. *)
From Verif Require Export Outer2Model OuterProofs.
From stdpp Require Import list_numbers.
From Verif Require Import BaseProofs ConcProofs ScanProofs Assemble ParProofs RadixProofs SortProofs.
From Verif Require Import Base Spec.

(** ** Loops that fail, and sums *)
Lemma for_n_err {S} (I : nat -> S -> Prop) (body : nat -> S -> res S) n lo s0 i0 e : I lo s0 -> lo <= i0 < lo + n ->
  (forall i s, lo <= i < i0 -> I i s -> exists s', body i s = Ok s' /\ I (Datatypes.S i) s') ->
  (forall s, I i0 s -> body i0 s = Err e) -> for_n n lo body s0 = Err e.
Proof.
  revert lo s0. induction n as [|n IH]; intros lo s0 H0 Hi Hs He; [lia|]. cbn [for_n]. destruct (decide (i0 = lo)) as [->|Hne].
  - rewrite (He _ H0). reflexivity.
  - destruct (Hs lo s0 ltac:(lia) H0) as (s1 & -> & H1). rewrite bind_Ok. apply IH; [exact H1|lia| |exact He]. intros i s Hi' HI. apply Hs; [lia|exact HI].
Qed.
Lemma sum_list_app' l1 l2 : sum_list (l1 ++ l2) = sum_list l1 + sum_list l2.
Proof. induction l1 as [|x l IH]; [reflexivity|]. cbn [app sum_list]. unfold id in *. cbn in *. lia. Qed.
Lemma sumTo_S (F : nat -> nat) i : sum_list (F <$> seq 0 (S i)) = sum_list (F <$> seq 0 i) + F i.
Proof. rewrite seq_S, fmap_app, sum_list_app'. cbn. lia. Qed.
Lemma sumTo_mono (F : nat -> nat) i n : i <= n -> sum_list (F <$> seq 0 i) <= sum_list (F <$> seq 0 n).
Proof. induction 1 as [|n H IH]; [reflexivity|]. rewrite sumTo_S. lia. Qed.
Lemma sumTo_ext (F G : nat -> nat) n : (forall i, i < n -> F i = G i) -> sum_list (F <$> seq 0 n) = sum_list (G <$> seq 0 n).
Proof. intros H. f_equal. apply list_fmap_ext. intros i x Hx. apply elem_of_list_lookup_2, elem_of_seq in Hx. apply H. lia. Qed.
Lemma sumTo_zero n : sum_list ((fun _ => 0) <$> seq 0 n) = 0.
Proof. induction n as [|n IH]; [reflexivity|]. rewrite sumTo_S, IH. reflexivity. Qed.
Lemma sumTo_add (F G : nat -> nat) n : sum_list ((fun i => F i + G i) <$> seq 0 n) = sum_list (F <$> seq 0 n) + sum_list (G <$> seq 0 n).
Proof. induction n as [|n IH]; [reflexivity|]. rewrite !sumTo_S, IH. lia. Qed.
Lemma sumTo_delta r v n : r < n -> sum_list ((fun i => if decide (i = r) then v else 0) <$> seq 0 n) = v.
Proof.
  induction n as [|n IH]; intros H; [lia|]. rewrite sumTo_S. destruct (decide (n = r)) as [->|E]; [|rewrite IH by lia; lia].
  rewrite (sumTo_ext _ (fun _ => 0)), sumTo_zero; [reflexivity|]. intros i Hi. rewrite decide_False by lia. reflexivity.
Qed.
Lemma sumTo_cut (F : nat -> nat) m n : m <= n -> sum_list ((fun i => if i <? m then F i else 0) <$> seq 0 n) = sum_list (F <$> seq 0 m).
Proof.
  induction 1 as [|n H IH].
  - apply sumTo_ext. intros i Hi. destruct (Nat.ltb_spec i m); [reflexivity|lia].
  - rewrite sumTo_S, IH. destruct (Nat.ltb_spec n m); lia.
Qed.

Section Rows.
Context {V : Type}.
Notation triple := (nat * nat * V)%type.
Notation cnt := (fun r (T : list triple) => length (ofBlk (fun x => x) r T)).

(** The tuples of a block, row by row. *)
Lemma rows_sum blk c n (T : list triple) : (forall x, x ∈ T -> x.1.1 < n) ->
  sum_list ((fun r => if decide (blk r = c) then cnt r T else 0) <$> seq 0 n) = length (ofBlk blk c T).
Proof.
  induction T as [|x T IH]; intros H.
  - rewrite (sumTo_ext _ (fun _ => 0)), sumTo_zero; [reflexivity|]. intros i _. destruct (decide _); reflexivity.
  - rewrite (sumTo_ext _ (fun r => (if decide (r = x.1.1) then if decide (blk x.1.1 = c) then 1 else 0 else 0) + (if decide (blk r = c) then cnt r T else 0))).
    + rewrite sumTo_add, IH by (intros y Hy; apply H; right; exact Hy). rewrite sumTo_delta by (apply H; left).
      unfold ofBlk. rewrite filter_cons. destruct (decide (blk x.1.1 = c)); reflexivity.
    + intros i Hi. unfold ofBlk. rewrite filter_cons. destruct (decide (i = x.1.1)) as [->|E].
      * destruct (decide (blk x.1.1 = c)); [|reflexivity]. rewrite decide_True by reflexivity. reflexivity.
      * rewrite (decide_False (P := x.1.1 = i)) by congruence. reflexivity.
Qed.
Lemma rows_total n (T : list triple) : (forall x, x ∈ T -> x.1.1 < n) -> sum_list ((fun r => cnt r T) <$> seq 0 n) = length T.
Proof.
  intros H. assert (E : length T = length (ofBlk (fun _ => 0) 0 T)) by (unfold ofBlk; rewrite filter_all; reflexivity).
  rewrite E, <- (rows_sum (fun _ => 0) 0 n T H). apply sumTo_ext. intros i _. rewrite decide_True by reflexivity. reflexivity.
Qed.
End Rows.

(** ** Counting the products *)
Section Flops.
Context {V : Type} (mul : V -> V -> V) (A : csc V) (B : csr V).
Notation triple := (nat * nat * V)%type.
Hypothesis HA : wf_csc A.
Hypothesis HB : wf B.
Hypothesis Hin : c_cols A = rows B.
Notation n := (c_rows A).
Notation T := (prods mul A B).
Definition colP (i : nat) : nat := length (colTriples mul A B i).
Definition rowP (r : nat) : nat := length (ofBlk (fun x => x) r T).
Definition colF (i : nat) : nat := if i <? c_cols A then colP i else 0.

Lemma colP_eq i : colP i = length (row_entries B i) * length (col_entries A i).
Proof.
  unfold colP, colTriples. induction (col_entries A i) as [|ra l IH]; [simpl; lia|]. rewrite fmap_cons, mjoin_cons, app_length, IH.
  unfold entTriples. rewrite fmap_length. cbn [length]. lia.
Qed.

Definition itsAt (i : nat) : list nat := (fun q => if q <? i then colP q else 0) <$> seq 0 n.

Lemma counts_step (i row : nat) (a : V) (S' : list triple) : row < n ->
  <[row := length (ofBlk (fun x => x) row S') + length (row_entries B i)]> (counts (fun x => x) n S') = counts (fun x => x) n (S' ++ entTriples mul B i (row, a)).
Proof.
  intros Hr. apply list_eq. intros k. destruct (decide (k < n)) as [Hk|Hk].
  - rewrite (counts_lookup (fun x => x) n _ k Hk), ofBlk_app, ofBlk_ent, app_length. cbn [fst].
    destruct (decide (k = row)) as [->|Hne].
    + rewrite list_lookup_insert by (unfold counts; rewrite fmap_length, seq_length; exact Hr). rewrite Nat.eqb_refl. unfold entTriples. rewrite fmap_length. reflexivity.
    + rewrite list_lookup_insert_ne by congruence. rewrite (counts_lookup (fun x => x) n _ k Hk). destruct (Nat.eqb_spec row k); [congruence|]. simpl. f_equal. lia.
  - rewrite !(proj2 (lookup_ge_None _ _)); [reflexivity| |]; unfold counts; rewrite ?insert_length, fmap_length, seq_length; lia.
Qed.

Lemma flopCol_ok i : i < c_cols A -> i < n -> flopCol A B i (itsAt i, counts (fun x => x) n (colsTriples mul A B (seq 0 i))) =
  Ok (itsAt (i + 1), counts (fun x => x) n (colsTriples mul A B (seq 0 (i + 1)))).
Proof.
  intros Hi Hn. unfold flopCol.
  destruct (wf_lookup (csc_tr A) i HA) as [b Hb]; [cbn; lia|]. destruct (wf_lookup (csc_tr A) (i + 1) HA) as [e He]; [cbn; lia|].
  destruct (wf_lookup B i HB) as [x Hx]; [lia|]. destruct (wf_lookup B (i + 1) HB) as [y Hy]; [lia|].
  change (rowptr (csc_tr A)) with (colptr A) in Hb, He.
  rewrite (get_Some _ _ _ Hy), bind_Ok, (get_Some _ _ _ Hx), bind_Ok, (get_Some _ _ _ He), bind_Ok, (get_Some _ _ _ Hb), bind_Ok.
  assert (LB : y - x = length (row_entries B i)) by (symmetry; apply (row_entries_length B i x y HB ltac:(lia) Hx Hy)).
  assert (LA : e - b = length (col_entries A i)) by (symmetry; apply (row_entries_length (csc_tr A) i b e HA Hi Hb He)).
  rewrite set_Ok by (unfold itsAt; rewrite fmap_length, seq_length; exact Hn). rewrite bind_Ok.
  destruct (row_loop_inv (csc_tr A) i b e (fun done frs => frs = counts (fun x => x) n (colsTriples mul A B (seq 0 i) ++ mjoin (entTriples mul B i <$> done)))
    (fun j frs => r <- get (rowids A) j ;; f <- get frs r ;; set_ frs r (f + (y - x))) (counts (fun x => x) n (colsTriples mul A B (seq 0 i)))) as (fl & -> & ->).
  - exact HA.
  - exact Hi.
  - exact Hb.
  - exact He.
  - cbn. rewrite app_nil_r. reflexivity.
  - intros done j row a rest frs Er Ej Hrow Ha Hlt ->. change (row < n) in Hlt. change (rowids A !! j = Some row) in Hrow.
    rewrite (get_Some _ _ _ Hrow), bind_Ok, (get_Some _ _ _ (counts_lookup (fun x => x) n _ _ Hlt)), bind_Ok.
    rewrite set_Ok by (unfold counts; rewrite fmap_length, seq_length; exact Hlt). eexists. split; [reflexivity|].
    rewrite LB, (counts_step i row a _ Hlt). rewrite fmap_app, mjoin_app, (assoc_L (++)). assert (E1 : mjoin (entTriples mul B i <$> [(row, a)]) = entTriples mul B i (row, a)) by (cbn; apply app_nil_r).
    rewrite E1. reflexivity.
  - rewrite bind_Ok. do 2 f_equal.
    + rewrite LA, LB, <- colP_eq. apply list_eq. intros k. destruct (decide (k < n)) as [Hk|Hk].
      * destruct (decide (k = i)) as [->|Hne].
        -- rewrite list_lookup_insert by (unfold itsAt; rewrite fmap_length, seq_length; exact Hn). unfold itsAt. rewrite list_lookup_fmap, lookup_seq_lt by exact Hk. cbn [fmap option_fmap option_map Nat.add].
           destruct (Nat.ltb_spec i (i + 1)); [reflexivity|lia].
        -- rewrite list_lookup_insert_ne by congruence. unfold itsAt. rewrite !list_lookup_fmap, lookup_seq_lt by exact Hk. cbn [fmap option_fmap option_map Nat.add].
           destruct (Nat.ltb_spec k i), (Nat.ltb_spec k (i + 1)); try lia; reflexivity.
      * rewrite !(proj2 (lookup_ge_None _ _)); [reflexivity| |]; unfold itsAt; rewrite ?insert_length, fmap_length, seq_length; lia.
    + f_equal. unfold colsTriples. rewrite seq_app, fmap_app, mjoin_app. f_equal. cbn. rewrite app_nil_r. reflexivity.
Qed.

Lemma itsAt_0 : itsAt 0 = replicate n 0.
Proof.
  unfold itsAt. apply list_eq. intros k. destruct (decide (k < n)) as [Hk|Hk].
  - rewrite list_lookup_fmap, lookup_seq_lt, lookup_replicate_2 by exact Hk. reflexivity.
  - rewrite !(proj2 (lookup_ge_None _ _)); [reflexivity| |]; rewrite ?replicate_length, ?fmap_length, ?seq_length; lia.
Qed.

Lemma flops_ok : c_cols A <= n -> for_ 0 (c_cols A) (flopCol A B) (replicate n 0, replicate n 0) = Ok (colF <$> seq 0 n, rowP <$> seq 0 n).
Proof.
  intros Hle.
  destruct (for_inv (fun i s => s = (itsAt i, counts (fun x => x) n (colsTriples mul A B (seq 0 i)))) (flopCol A B) 0 (c_cols A) (replicate n 0, replicate n 0)) as (s & -> & ->).
  - lia.
  - rewrite itsAt_0. f_equal. symmetry. apply (counts_nil (V := V) (fun x => x) n).
  - intros i s Hi ->. rewrite flopCol_ok by lia. eauto.
  - reflexivity.
Qed.

(** A has too few rows. *)
Lemma flops_wide : n < c_cols A -> for_ 0 (c_cols A) (flopCol A B) (replicate n 0, replicate n 0) = Err OutOfBounds.
Proof.
  intros Hlt. unfold for_. apply (for_n_err (fun i s => s = (itsAt i, counts (fun x => x) n (colsTriples mul A B (seq 0 i)))) _ _ _ _ n).
  - rewrite itsAt_0. f_equal. symmetry. apply (counts_nil (V := V) (fun x => x) n).
  - lia.
  - intros i s Hi ->. rewrite flopCol_ok by lia. replace (S i) with (i + 1) by lia. eauto.
  - intros s ->. unfold flopCol.
    destruct (wf_lookup (csc_tr A) n HA) as [b Hb]; [cbn; lia|]. destruct (wf_lookup (csc_tr A) (n + 1) HA) as [e He]; [cbn; lia|].
    destruct (wf_lookup B n HB) as [x Hx]; [lia|]. destruct (wf_lookup B (n + 1) HB) as [y Hy]; [lia|].
    change (rowptr (csc_tr A)) with (colptr A) in Hb, He.
    rewrite (get_Some _ _ _ Hy), bind_Ok, (get_Some _ _ _ Hx), bind_Ok, (get_Some _ _ _ He), bind_Ok, (get_Some _ _ _ Hb), bind_Ok.
    unfold set_, itsAt. rewrite fmap_length, seq_length, Nat.ltb_irrefl. reflexivity.
Qed.

Lemma total_rows : sum_list (rowP <$> seq 0 n) = length T.
Proof. apply rows_total. intros x Hx. apply (prods_range mul A B HA HB x Hx). Qed.
Lemma total_cols : c_cols A <= n -> sum_list (colF <$> seq 0 n) = length T.
Proof.
  intros Hle. unfold colF. rewrite sumTo_cut by exact Hle. unfold prods, colsTriples, colP. clear Hle. generalize (c_cols A). intros m. induction m as [|m IH]; [reflexivity|].
  rewrite sumTo_S, seq_S, fmap_app, mjoin_app, app_length, IH. cbn. rewrite app_nil_r. reflexivity.
Qed.
End Flops.

(** ** Cutting rows into blocks and columns into ranges *)
(** The products of the rows assigned to block [c], in a list of the block and the products of every row. *)
Definition vol (c : nat) (L : list (nat * nat)) : nat := sum_list (snd <$> filter (fun x => x.1 = c) L).
Lemma vol_snoc c L b f : vol c (L ++ [(b, f)]) = vol c L + (if decide (b = c) then f else 0).
Proof.
  unfold vol. rewrite filter_app, fmap_app, sum_list_app'. destruct (decide (b = c)); [rewrite filter_cons_True by assumption|rewrite filter_cons_False by assumption]; cbn; lia.
Qed.
Lemma vol_zero c L : (forall x, x ∈ L -> x.1 <> c) -> vol c L = 0.
Proof. intros H. unfold vol. rewrite filter_none; [reflexivity|exact H]. Qed.
Lemma vol_sum (blk F : nat -> nat) c n : vol c ((fun r => (blk r, F r)) <$> seq 0 n) = sum_list ((fun r => if decide (blk r = c) then F r else 0) <$> seq 0 n).
Proof. induction n as [|n IH]; [reflexivity|]. rewrite sumTo_S, seq_S, fmap_app. cbn [fmap list_fmap]. rewrite vol_snoc, IH. reflexivity. Qed.

(** Offsets: those set, the last of them [n], then zeros. *)
Record offsOk (n nth : nat) (offs : list nat) : Prop := {
  oo_len : length offs = nth + 1;
  oo_ws : exists ws, offs = ws ++ n :: replicate (nth - length ws) 0 /\ ws !! 0 = Some 0 /\ length ws <= nth /\
    (forall q a b, ws !! q = Some a -> ws !! S q = Some b -> a <= b) /\ forall a, a ∈ ws -> a <= n }.
Definition ranges (offs : list nat) (nth : nat) : list (list nat) :=
  (fun t => let f := default 0 (offs !! t) in seq f (default 0 (offs !! (t + 1)) - f)) <$> seq 0 nth.

Section Cut.
Context (n nb nth Mx : nat) (F G : nat -> nat).
Notation total := (sum_list (F <$> seq 0 n)).
Notation avgB := (total / nb).
Notation avgT := (total / nth).
Hypothesis Hnb : 1 <= nb.
Hypothesis Hnth : 1 <= nth.
Hypothesis HF : forall r, r < n -> F r <= Mx.
Hypothesis HG : sum_list (G <$> seq 0 n) = total.

Record cutInv (i : nat) (L : list (nat * nat)) (ws : list nat) (c : cutState) : Prop := {
  ci_rtb : length (cu_rtb c) = n;
  ci_blk : forall q x, L !! q = Some x -> cu_rtb c !! q = Some (Some x.1);
  ci_L : snd <$> L = F <$> seq 0 i;
  ci_fl : length (cu_fl c) = nb;
  ci_vol : forall k, k < nb -> cu_fl c !! k = Some (vol k L);
  ci_b : forall x, x ∈ L -> x.1 <= cu_b c;
  ci_bv : vol (cu_b c) L = cu_bv c;
  ci_sorted : forall q q' x x', L !! q = Some x -> L !! q' = Some x' -> q <= q' -> x.1 <= x'.1;
  ci_sum : cu_b c * (avgB + 1) + cu_bv c <= sum_list (F <$> seq 0 i);
  ci_small : cu_bv c <= avgB;
  ci_mx : forall k, vol k L <= avgB + Mx;
  ci_offs : cu_offs c = ws ++ replicate (nth + 1 - length ws) 0;
  ci_t : cu_t c = length ws;
  ci_0 : ws !! 0 = Some 0;
  ci_ws : forall q a b, ws !! q = Some a -> ws !! S q = Some b -> a <= b;
  ci_le : forall a, a ∈ ws -> a <= i;
  ci_tsum : (cu_t c - 1) * (avgT + 1) + cu_tv c <= sum_list (G <$> seq 0 i);
  ci_tsmall : cu_tv c <= avgT }.

Lemma below_nb k : k * (avgB + 1) <= total -> k < nb.
Proof. intros H. pose proof (Nat.mul_succ_div_gt total nb ltac:(lia)). destruct (Nat.lt_ge_cases k nb) as [L|L]; [exact L|]. nia. Qed.
Lemma below_nth k : k * (avgT + 1) <= total -> k < nth.
Proof. intros H. pose proof (Nat.mul_succ_div_gt total nth ltac:(lia)). destruct (Nat.lt_ge_cases k nth) as [L|L]; [exact L|]. nia. Qed.

Lemma cut_bounds i L ws c : i <= n -> cutInv i L ws c -> cu_b c < nb /\ 1 <= cu_t c <= nth.
Proof.
  intros Hi I. pose proof (ci_sum _ _ _ _ I). pose proof (ci_tsum _ _ _ _ I). pose proof (sumTo_mono F i n Hi). pose proof (sumTo_mono G i n Hi).
  pose proof (lookup_lt_Some _ _ _ (ci_0 _ _ _ _ I)) as Hw. rewrite <- (ci_t _ _ _ _ I) in Hw. split; [apply below_nb; lia|]. split; [exact Hw|].
  assert (cu_t c - 1 < nth) by (apply below_nth; lia). lia.
Qed.

Lemma cutRow_ok i L ws c : i < n -> cutInv i L ws c -> exists L' ws' c', cutRow (G <$> seq 0 n) (F <$> seq 0 n) avgB avgT i c = Ok c' /\ cutInv (i + 1) L' ws' c'.
Proof.
  intros Hi I. destruct (cut_bounds i L ws c ltac:(lia) I) as [Bb Bt]. destruct c as [rtb offs fl b bv t tv]. destruct I. cbn [cu_rtb cu_offs cu_fl cu_b cu_bv cu_t cu_tv] in *.
  unfold cutRow. cbn [cu_rtb cu_offs cu_fl cu_b cu_bv cu_t cu_tv].
  rewrite (get_Some _ i (F i)) by (rewrite list_lookup_fmap, lookup_seq_lt by exact Hi; reflexivity).
  rewrite bind_Ok, (get_Some _ i (G i)) by (rewrite list_lookup_fmap, lookup_seq_lt by exact Hi; reflexivity).
  rewrite bind_Ok, set_Ok by lia. rewrite bind_Ok, set_Ok by lia. rewrite bind_Ok.
  assert (LL : length L = i) by (rewrite <- (fmap_length snd), ci_L0, fmap_length, seq_length; reflexivity).
  set (L' := L ++ [(b, F i)]). set (b' := if avgB <? bv + F i then b + 1 else b). set (bv' := if avgB <? bv + F i then 0 else bv + F i).
  replace (if avgB <? bv + F i then (b + 1, 0) else (b, bv + F i)) with (b', bv') by (unfold b', bv'; destruct (avgB <? bv + F i); reflexivity).
  assert (Hs : forall H : nat -> nat, sum_list (H <$> seq 0 (i + 1)) = sum_list (H <$> seq 0 i) + H i) by (intros H; rewrite Nat.add_1_r; apply sumTo_S).
  assert (J : forall offs' ws' t' tv', offs' = ws' ++ replicate (nth + 1 - length ws') 0 -> t' = length ws' -> ws' !! 0 = Some 0 ->
    (forall q a b, ws' !! q = Some a -> ws' !! S q = Some b -> a <= b) -> (forall a, a ∈ ws' -> a <= i + 1) ->
    (t' - 1) * (avgT + 1) + tv' <= sum_list (G <$> seq 0 i) + G i -> tv' <= avgT ->
    cutInv (i + 1) L' ws' (mkCut (<[i := Some b]> rtb) offs' (<[b := bv + F i]> fl) b' bv' t' tv')).
  { intros offs' ws' t' tv' K1 K2 K3 K4 K5 K6 K7. constructor; cbn [cu_rtb cu_offs cu_fl cu_b cu_bv cu_t cu_tv]; try assumption.
    - rewrite insert_length. exact ci_rtb0.
    - intros q x Hq. unfold L' in Hq. apply lookup_app_Some in Hq as [Hq|[Hge Hq]].
      + rewrite list_lookup_insert_ne by (apply lookup_lt_Some in Hq; lia). apply ci_blk0, Hq.
      + apply list_lookup_singleton_Some in Hq as [Eq <-]. replace q with i by lia. rewrite list_lookup_insert by lia. reflexivity.
    - unfold L'. rewrite fmap_app, ci_L0, Nat.add_1_r, seq_S, fmap_app. reflexivity.
    - rewrite insert_length. exact ci_fl0.
    - intros k Hk. unfold L'. rewrite vol_snoc. destruct (decide (b = k)) as [->|Hne].
      + rewrite list_lookup_insert by lia. rewrite ci_bv0. reflexivity.
      + rewrite list_lookup_insert_ne by exact Hne. rewrite (ci_vol0 k Hk). f_equal. lia.
    - intros x Hx. unfold L' in Hx. apply elem_of_app in Hx as [Hx|Hx]; [apply ci_b0 in Hx|apply elem_of_list_singleton in Hx as ->; cbn]; unfold b'; destruct (_ <? _); lia.
    - unfold L', b', bv'. rewrite vol_snoc. destruct (_ <? _).
      + rewrite decide_False by lia. rewrite vol_zero; [reflexivity|]. intros x Hx. apply ci_b0 in Hx. lia.
      + rewrite decide_True by reflexivity. rewrite ci_bv0. reflexivity.
    - intros q q' x x' Hq Hq' Hle. unfold L' in Hq, Hq'. apply lookup_app_Some in Hq as [Hq|[Hge Hq]]; apply lookup_app_Some in Hq' as [Hq'|[Hge' Hq']].
      + exact (ci_sorted0 q q' x x' Hq Hq' Hle).
      + apply list_lookup_singleton_Some in Hq' as [_ <-]. cbn. eapply ci_b0, elem_of_list_lookup_2, Hq.
      + apply lookup_lt_Some in Hq'. lia.
      + apply list_lookup_singleton_Some in Hq as [_ <-]. apply list_lookup_singleton_Some in Hq' as [_ <-]. reflexivity.
    - rewrite Hs. unfold b', bv'. destruct (Nat.ltb_spec avgB (bv + F i)); nia.
    - unfold bv'. destruct (Nat.ltb_spec avgB (bv + F i)); lia.
    - intros k. unfold L'. rewrite vol_snoc. destruct (decide (b = k)) as [->|Hne]; [rewrite ci_bv0; specialize (HF i Hi); lia|]. specialize (ci_mx0 k). lia.
    - rewrite Hs. exact K6. }
  destruct (Nat.ltb_spec avgT (tv + G i)) as [C|C].
  - pose proof (sumTo_mono G (i + 1) n ltac:(lia)) as Hm. rewrite Hs in Hm.
    assert (Ht : t < nth). { apply below_nth. destruct t as [|t]; [lia|]. cbn in ci_tsum0. rewrite Nat.sub_0_r in ci_tsum0. nia. }
    rewrite set_Ok by (rewrite ci_offs0, app_length, replicate_length; lia). rewrite bind_Ok. exists L', (ws ++ [i]). eexists. split; [reflexivity|]. apply J.
    + rewrite ci_offs0, ci_t0. rewrite app_length. cbn [length].
      replace (nth + 1 - length ws) with (S (nth + 1 - (length ws + 1))) by lia. cbn [replicate].
      rewrite insert_app_r_alt by lia. rewrite Nat.sub_diag. cbn. rewrite <- (assoc_L (++)). reflexivity.
    + rewrite app_length. cbn. lia.
    + rewrite lookup_app_l by lia. assumption.
    + intros q x y Hx Hy. apply lookup_app_Some in Hy as [Hy|[Hge Hy]].
      * apply (ci_ws0 q x y); [|exact Hy]. apply lookup_app_Some in Hx as [Hx|[Hge Hx]]; [exact Hx|]. apply lookup_lt_Some in Hy. lia.
      * apply list_lookup_singleton_Some in Hy as [E <-]. apply lookup_app_Some in Hx as [Hx|[Hge' Hx]]; [eapply ci_le0, elem_of_list_lookup_2, Hx|]. lia.
    + intros x Hx. apply elem_of_app in Hx as [Hx|Hx]; [apply ci_le0 in Hx; lia|]. apply elem_of_list_singleton in Hx as ->. lia.
    + destruct t as [|t]; [lia|]. replace (S t + 1 - 1) with (S t) by lia. cbn in ci_tsum0. rewrite Nat.sub_0_r in ci_tsum0. nia.
    + lia.
  - exists L', ws. eexists. split; [reflexivity|]. apply J; try assumption.
    + intros x Hx. apply ci_le0 in Hx. lia.
    + lia.
Qed.

Lemma cut_ok : 1 <= n -> exists L ws c, for_ 0 n (cutRow (G <$> seq 0 n) (F <$> seq 0 n) avgB avgT)
    (mkCut (<[0 := Some 0]> (replicate n None)) (<[0 := 0]> (replicate (nth + 1) 0)) (replicate nb 0) 0 0 1 0) = Ok c /\ cutInv n L ws c.
Proof.
  intros Hn.
  destruct (for_inv (fun i c => exists L ws, cutInv i L ws c) (cutRow (G <$> seq 0 n) (F <$> seq 0 n) avgB avgT) 0 n
    (mkCut (<[0 := Some 0]> (replicate n None)) (<[0 := 0]> (replicate (nth + 1) 0)) (replicate nb 0) 0 0 1 0)) as (c & E & L & ws & I).
  - lia.
  - exists [], [0]. constructor; cbn [cu_rtb cu_offs cu_fl cu_b cu_bv cu_t cu_tv].
    + rewrite insert_length, replicate_length. reflexivity.
    + intros q x Hq. rewrite lookup_nil in Hq. discriminate.
    + reflexivity.
    + apply replicate_length.
    + intros k Hk. rewrite lookup_replicate_2 by exact Hk. reflexivity.
    + intros x Hx. inversion Hx.
    + reflexivity.
    + intros q q' x x' Hq. rewrite lookup_nil in Hq. discriminate.
    + apply Nat.le_0_l.
    + apply Nat.le_0_l.
    + intros k. apply Nat.le_0_l.
    + replace (nth + 1) with (S nth) by lia. cbn [replicate length]. change (<[0 := 0]> (0 :: replicate nth 0)) with (0 :: replicate nth 0). cbn [app]. do 2 f_equal. lia.
    + reflexivity.
    + reflexivity.
    + intros [|q] a b Ha Hb; cbn in Hb; discriminate.
    + intros a Ha. apply elem_of_list_singleton in Ha as ->. lia.
    + apply Nat.le_0_l.
    + apply Nat.le_0_l.
  - intros i c Hi (L & ws & I). destruct (cutRow_ok i L ws c ltac:(lia) I) as (L' & ws' & c' & E & I'). exists c'. split; [exact E|]. rewrite <- Nat.add_1_r. eauto.
  - exists L, ws, c. auto.
Qed.
End Cut.

(** The ranges of the threads, one after the other. *)
Lemma chain_join (o : nat -> nat) m : (forall t, t < m -> o t <= o (S t)) -> mjoin ((fun t => seq (o t) (o (t + 1) - o t)) <$> seq 0 m) = seq (o 0) (o m - o 0) /\ o 0 <= o m.
Proof.
  induction m as [|m IH]; intros H; [split; [rewrite Nat.sub_diag; reflexivity|lia]|]. destruct IH as [I1 I2]; [intros t Ht; apply H; lia|]. specialize (H m ltac:(lia)).
  split; [|lia]. rewrite seq_S, fmap_app, mjoin_app, I1. cbn [fmap list_fmap Nat.add]. rewrite mjoin_cons. change (mjoin []) with (@nil nat). rewrite app_nil_r, Nat.add_1_r.
  replace (o m) with (o 0 + (o m - o 0)) at 2 by lia. rewrite <- seq_app. f_equal. lia.
Qed.
Lemma ranges_join n nth offs : offsOk n nth offs -> mjoin (ranges offs nth) = seq 0 n.
Proof.
  intros [Hl (ws & -> & H0 & Hw & Hs & Hle)]. unfold ranges. cbv zeta. set (offs := ws ++ n :: replicate (nth - length ws) 0) in *.
  pose proof (lookup_lt_Some _ _ _ H0) as Hw0.
  assert (Em : offs !! length ws = Some n) by (unfold offs; rewrite lookup_app_r, Nat.sub_diag by lia; reflexivity).
  assert (Er : forall t, length ws < t -> default 0 (offs !! t) = 0).
  { intros t Ht. unfold offs. rewrite lookup_app_r by lia. destruct (t - length ws) as [|k] eqn:E; [lia|]. cbn. destruct (replicate _ _ !! k) eqn:Ek; [apply lookup_replicate in Ek as [-> _]|]; reflexivity. }
  replace nth with (length ws + (nth - length ws)) at 1 by lia. rewrite seq_app, fmap_app, mjoin_app.
  destruct (chain_join (fun t => default 0 (offs !! t)) (length ws)) as [E _].
  - intros t Ht. destruct (lookup_lt_is_Some_2 ws t Ht) as [a Ha]. assert (Ea : offs !! t = Some a) by (unfold offs; rewrite lookup_app_l by exact Ht; exact Ha). rewrite Ea.
    destruct (decide (S t = length ws)) as [Et|Et]; [rewrite Et, Em; eapply Hle, elem_of_list_lookup_2, Ha|].
    destruct (lookup_lt_is_Some_2 ws (S t) ltac:(lia)) as [b Hb]. assert (Eb : offs !! S t = Some b) by (unfold offs; rewrite lookup_app_l by lia; exact Hb). rewrite Eb. exact (Hs t a b Ha Hb).
  - cbv beta in E. rewrite E, Em. assert (E0 : offs !! 0 = Some 0) by (unfold offs; rewrite lookup_app_l by lia; exact H0). rewrite E0. cbn [default from_option id]. rewrite Nat.sub_0_r.
    assert (HX : forall l, (forall t, t ∈ l -> length ws <= t) -> mjoin ((fun t => seq (default 0 (offs !! t)) (default 0 (offs !! (t + 1)) - default 0 (offs !! t))) <$> l) = []).
    { induction l as [|t l IH]; intros Hq; [reflexivity|]. rewrite fmap_cons, mjoin_cons, IH by (intros u Hu; apply Hq; right; exact Hu). rewrite (Er (t + 1)) by (specialize (Hq t ltac:(left)); lia). reflexivity. }
    rewrite HX; [apply app_nil_r|]. intros t Ht. apply elem_of_seq in Ht. lia.
Qed.
Lemma ranges_at n nth offs t : offsOk n nth offs -> t < nth -> exists f l, offs !! t = Some f /\ offs !! (t + 1) = Some l.
Proof.
  intros [Hl _] Ht. destruct (lookup_lt_is_Some_2 offs t ltac:(lia)) as [f Hf]. destruct (lookup_lt_is_Some_2 offs (t + 1) ltac:(lia)) as [l Hll]. eauto.
Qed.

(** ** do_symbolic *)
Section Sym.
Context {V : Type} (mul : V -> V -> V) (A : csc V) (B : csr V) (nb nth Mx : nat).
Notation triple := (nat * nat * V)%type.
Hypothesis HA : wf_csc A.
Hypothesis HB : wf B.
Hypothesis Hin : c_cols A = rows B.
Notation n := (c_rows A).
Notation T := (prods mul A B).

Lemma doSymbolic_ok : 1 <= nb -> 1 <= nth -> 1 <= n -> c_cols A <= n -> (N.of_nat (length T) < 2 ^ 31)%N -> (forall r, r < n -> rowP mul A B r <= Mx) ->
  exists rtb offs blk, doSymbolic A B nb nth = Ok (rtb, offs, counts blk nb T) /\ offsOk n nth offs /\
    (forall r, r < n -> rtb !! r = Some (Some (blk r))) /\ (forall r, r < n -> blk r < nb) /\ (forall r r', r <= r' -> blk r <= blk r') /\
    forall b, b < nb -> length (ofBlk blk b T) <= length T / nb + Mx.
Proof.
  intros Hnb Hnth Hn Hle Ht HMx. unfold doSymbolic. cbv zeta. rewrite (flops_ok mul A B HA HB Hin Hle), bind_Ok.
  pose proof (total_rows mul A B HA HB) as ET. pose proof (total_cols mul A B Hle) as EC.
  assert (EG : sum_list (colF mul A B <$> seq 0 n) = sum_list (rowP mul A B <$> seq 0 n)) by (rewrite EC, ET; reflexivity).
  unfold totalFlops. rewrite ET. destruct (N.ltb_spec (N.of_nat (length T)) (2 ^ 31)) as [_|L]; [|lia]. rewrite bind_Ok. unfold divInt.
  destruct (Nat.eqb_spec nb 0) as [|_]; [lia|]. rewrite bind_Ok. destruct (Nat.eqb_spec nth 0) as [|_]; [lia|]. rewrite bind_Ok.
  rewrite set_Ok by (rewrite replicate_length; lia). rewrite bind_Ok, set_Ok by (rewrite replicate_length; lia). rewrite bind_Ok.
  destruct (cut_ok n nb nth Mx (rowP mul A B) (colF mul A B) Hnb Hnth HMx EG Hn) as (L & ws & c & E & I). rewrite ET in E. rewrite E, bind_Ok.
  destruct (cut_bounds n nb nth Mx (rowP mul A B) (colF mul A B) Hnb Hnth HMx EG n L ws c ltac:(lia) I) as [Bb Bt].
  pose proof (lookup_lt_Some _ _ _ (ci_0 _ _ _ _ _ _ _ _ _ _ I)) as Hw.
  destruct I. rewrite set_Ok by (rewrite ci_offs0, app_length, replicate_length; lia). rewrite bind_Ok.
  assert (LL : length L = n) by (rewrite <- (fmap_length snd), ci_L0, fmap_length, seq_length; reflexivity).
  set (blk := fun r => match L !! r with Some x => x.1 | None => nb - 1 end).
  assert (EL : L = (fun r => (blk r, rowP mul A B r)) <$> seq 0 n).
  { apply list_eq. intros q. destruct (decide (q < n)) as [Hq|Hq].
    - destruct (lookup_lt_is_Some_2 L q ltac:(lia)) as [[b f] Hx]. rewrite Hx, list_lookup_fmap, lookup_seq_lt by exact Hq. cbn [fmap option_fmap option_map Nat.add]. unfold blk. rewrite Hx. cbn. do 2 f_equal.
      assert (Hf : (snd <$> L) !! q = Some f) by (rewrite list_lookup_fmap, Hx; reflexivity). rewrite ci_L0, list_lookup_fmap, lookup_seq_lt in Hf by exact Hq. injection Hf as <-. reflexivity.
    - rewrite !(proj2 (lookup_ge_None _ _)); [reflexivity| |]; rewrite ?fmap_length, ?seq_length; lia. }
  assert (EV : forall k, vol k L = length (ofBlk blk k T)).
  { intros k. rewrite EL, vol_sum. apply (rows_sum blk k n T). intros x Hx. apply (prods_range mul A B HA HB x Hx). }
  exists (cu_rtb c), (<[cu_t c := n]> (cu_offs c)), blk. split; [|split; [|split; [|split; [|split]]]].
  - do 2 f_equal. apply list_eq. intros k. destruct (decide (k < nb)) as [Hk|Hk].
    + rewrite (ci_vol0 k Hk), (counts_lookup blk nb T k Hk), EV. reflexivity.
    + rewrite !(proj2 (lookup_ge_None _ _)); [reflexivity| |]; unfold counts; rewrite ?fmap_length, ?seq_length; lia.
  - constructor; [rewrite insert_length, ci_offs0, app_length, replicate_length; lia|]. exists ws. split; [|split; [assumption|split; [lia|split; [assumption|assumption]]]].
    rewrite ci_offs0, ci_t0. replace (nth + 1 - length ws) with (S (nth - length ws)) by lia. cbn [replicate]. rewrite insert_app_r_alt by lia. rewrite Nat.sub_diag. reflexivity.
  - intros r Hr. destruct (lookup_lt_is_Some_2 L r ltac:(lia)) as [x Hx]. rewrite (ci_blk0 r x Hx). unfold blk. rewrite Hx. reflexivity.
  - intros r Hr. destruct (lookup_lt_is_Some_2 L r ltac:(lia)) as [x Hx]. unfold blk. rewrite Hx. apply elem_of_list_lookup_2, ci_b0 in Hx. lia.
  - intros r r' Hr. unfold blk. destruct (L !! r') as [x'|] eqn:E'.
    + destruct (lookup_lt_is_Some_2 L r) as [x Hx]; [apply lookup_lt_Some in E'; lia|]. rewrite Hx. exact (ci_sorted0 r r' x x' Hx E' Hr).
    + destruct (L !! r) as [x|] eqn:Ex; [|lia]. apply elem_of_list_lookup_2, ci_b0 in Ex. lia.
  - intros b Hb. rewrite <- EV, <- ET. apply ci_mx0.
Qed.

Lemma doSymbolic_wide : n < c_cols A -> doSymbolic A B nb nth = Err OutOfBounds.
Proof. intros Hlt. unfold doSymbolic. cbv zeta. rewrite (flops_wide mul A B HA HB Hin Hlt). reflexivity. Qed.
Lemma doSymbolic_many : c_cols A <= n -> (2 ^ 31 <= N.of_nat (length T))%N -> doSymbolic A B nb nth = Err OutOfBounds.
Proof.
  intros Hle Hm. unfold doSymbolic. cbv zeta. rewrite (flops_ok mul A B HA HB Hin Hle), bind_Ok. unfold totalFlops. rewrite (total_rows mul A B HA HB).
  destruct (N.ltb_spec (N.of_nat (length T)) (2 ^ 31)) as [L|_]; [lia|]. reflexivity.
Qed.
Lemma doSymbolic_zero : c_cols A <= n -> (N.of_nat (length T) < 2 ^ 31)%N -> doSymbolic A B 0 nth = Err DivByZero.
Proof.
  intros Hle Hm. unfold doSymbolic. cbv zeta. rewrite (flops_ok mul A B HA HB Hin Hle), bind_Ok. unfold totalFlops. rewrite (total_rows mul A B HA HB).
  destruct (N.ltb_spec (N.of_nat (length T)) (2 ^ 31)) as [_|L]; [|lia]. reflexivity.
Qed.
Lemma doSymbolic_empty : n = 0 -> c_cols A = 0 -> 1 <= nb -> 1 <= nth -> doSymbolic A B nb nth = Err OutOfBounds.
Proof.
  intros Hn Hc Hnb Hnth. unfold doSymbolic. cbv zeta. rewrite Hn, Hc. cbn [for_ Nat.sub for_n replicate]. rewrite bind_Ok. unfold totalFlops. cbn [sum_list sum_list_with foldr]. change ((N.of_nat 0 <? 2 ^ 31)%N) with true. cbv iota.
  rewrite bind_Ok. unfold divInt. destruct (Nat.eqb_spec nb 0) as [|_]; [lia|]. rewrite bind_Ok. destruct (Nat.eqb_spec nth 0) as [|_]; [lia|]. reflexivity.
Qed.
End Sym.

(** ** Threads that cannot end, and threads run one after the other *)
Section Stuck.
Context {X : Type}.
Inductive stuck {R} : fprog X R -> Prop :=
| stuck_fail f : stuck (FFail f)
| stuck_fadd b n k : (forall v, stuck (k v)) -> stuck (FFadd b n k)
| stuck_put b p x k : stuck k -> stuck (FPut b p x k).
Lemma stuck_bind {R S} (p : fprog X R) (k : R -> fprog X S) : (forall r, stuck (k r)) -> stuck (fbind p k).
Proof. intros H. induction p as [r|b n c IH|b i x c IH|f]; cbn [fbind]; [apply H|constructor; exact IH|constructor; exact IH|constructor]. Qed.
Lemma stuck_bind_l {R S} (p : fprog X R) (k : R -> fprog X S) : stuck p -> stuck (fbind p k).
Proof. induction 1 as [f|b n c H IH|b i x c H IH]; cbn [fbind]; constructor; assumption. Qed.

Lemma stuck_step c c' t (p : fprog X unit) : fstep c c' -> c.2 !! t = Some p -> stuck p -> exists p', c'.2 !! t = Some p' /\ stuck p'.
Proof.
  intros Hs Ht Hp. destruct Hs as [cn m ps u b n k v Hu Hc|cn m ps u b i x k blk Hu Hm Hi]; cbn [snd] in *; (destruct (decide (u = t)) as [->|Hne]; [|rewrite list_lookup_insert_ne by exact Hne; eauto]);
    rewrite list_lookup_insert by (eapply lookup_lt_Some, Hu); rewrite Hu in Ht; injection Ht as <-; inversion Hp; subst; eauto.
Qed.
Lemma stuck_never c t (p : fprog X unit) m : c.2 !! t = Some p -> stuck p -> ~ foutcome c (Ok m).
Proof.
  intros Ht Hp Ho. inversion Ho as [| | |m' ps Hr Hf]; subst.
  assert (H : forall c1 c2, rtc fstep c1 c2 -> forall p1, c1.2 !! t = Some p1 -> stuck p1 -> exists p2, c2.2 !! t = Some p2 /\ stuck p2).
  { induction 1 as [c0|c1 c2 c3 H1 _ IH]; intros p1 H2 H3; [eauto|]. destruct (stuck_step _ _ t p1 H1 H2 H3) as (p2 & H4 & H5). exact (IH p2 H4 H5). }
  destruct (H _ _ Hr p Ht Hp) as (p2 & H4 & H5). cbn in H4. rewrite Forall_lookup in Hf. rewrite (Hf t p2 H4) in H5. inversion H5.
Qed.

Lemma run_one (p : fprog X unit) : forall cn m ps t, ps !! t = Some p -> exists cn' m' p', rtc fstep ((cn, m), ps) ((cn', m'), <[t := p']> ps) /\
  (p' = FRet tt \/ exists f, fthread_fault cn' m' p' f).
Proof.
  induction p as [[]|b n k IH|b i x k IH|f]; intros cn m ps t Ht.
  - exists cn, m, (FRet tt). rewrite list_insert_id by exact Ht. split; [apply rtc_refl|auto].
  - destruct (cn !! b) as [v|] eqn:Eb.
    + destruct (IH v (<[b := v + n]> cn) m (<[t := k v]> ps) t) as (cn' & m' & p' & Hr & Hp); [rewrite list_lookup_insert by (eapply lookup_lt_Some, Ht); reflexivity|].
      exists cn', m', p'. split; [|exact Hp]. rewrite list_insert_insert in Hr. eapply rtc_l; [exact (fstep_fadd cn m ps t b n k v Ht Eb)|exact Hr].
    + exists cn, m, (FFadd b n k). rewrite list_insert_id by exact Ht. split; [apply rtc_refl|]. right. exists OutOfBounds. split; [exact Eb|reflexivity].
  - destruct (m !! b) as [blk|] eqn:Eb.
    + destruct (Nat.lt_ge_cases i (length blk)) as [L|L].
      * destruct (IH cn (<[b := <[i := Some x]> blk]> m) (<[t := k]> ps) t) as (cn' & m' & p' & Hr & Hp); [rewrite list_lookup_insert by (eapply lookup_lt_Some, Ht); reflexivity|].
        exists cn', m', p'. split; [|exact Hp]. rewrite list_insert_insert in Hr. eapply rtc_l; [exact (fstep_put cn m ps t b i x k blk Ht Eb L)|exact Hr].
      * exists cn, m, (FPut b i x k). rewrite list_insert_id by exact Ht. split; [apply rtc_refl|]. right. exists OutOfBounds. split; [|reflexivity]. intros blk' E. rewrite Eb in E. injection E as <-. exact L.
    + exists cn, m, (FPut b i x k). rewrite list_insert_id by exact Ht. split; [apply rtc_refl|]. right. exists OutOfBounds. split; [|reflexivity]. intros blk' E. congruence.
  - exists cn, m, (FFail f). rewrite list_insert_id by exact Ht. split; [apply rtc_refl|]. right. exists f. reflexivity.
Qed.

Lemma foutcome_exists (c : fcfg X) : exists o, foutcome c o.
Proof.
  destruct c as [[cn m] ps].
  assert (H : forall j, j <= length ps -> (exists o, foutcome ((cn, m), ps) o) \/
    exists m' ps', rtc fstep ((cn, m), ps) (m', ps') /\ length ps' = length ps /\ forall t p, t < j -> ps' !! t = Some p -> p = FRet tt).
  { induction j as [|j IH]; intros Hj; [right; exists (cn, m), ps; split; [apply rtc_refl|split; [reflexivity|intros; lia]]|].
    destruct IH as [H|([cn1 m1] & ps1 & H1 & H2 & H3)]; [lia|auto|]. destruct (lookup_lt_is_Some_2 ps1 j ltac:(lia)) as [p Hp].
    destruct (run_one p cn1 m1 ps1 j Hp) as (cn2 & m2 & p2 & R2 & [->|(f & Hf)]).
    - right. exists (cn2, m2), (<[j := FRet tt]> ps1). split; [eapply rtc_transitive; eassumption|]. split; [rewrite insert_length; exact H2|].
      intros t q Ht Hq. destruct (decide (t = j)) as [->|Hne]; [rewrite list_lookup_insert in Hq by lia; congruence|].
      rewrite list_lookup_insert_ne in Hq by congruence. apply (H3 t q); [lia|exact Hq].
    - left. exists (Err f). eapply fout_fault; [eapply rtc_transitive; eassumption| |exact Hf]. rewrite list_lookup_insert by lia. reflexivity. }
  destruct (H (length ps) ltac:(lia)) as [Ho|(m' & ps' & H1 & H2 & H3)]; [exact Ho|]. exists (Ok m'). eapply fout_done; [exact H1|]. apply Forall_lookup. intros t p Hp. apply (H3 t p); [|exact Hp].
  apply lookup_lt_Some in Hp. lia.
Qed.
End Stuck.

(** ** A thread with a column that A does not have *)
Section Tall.
Context {V : Type} (mul : V -> V -> V) (A : csc V) (B : csr V).
Lemma pushCols_stuck bid bw its i s : wf_csc A -> i ∈ its -> c_cols A <= i -> stuck (pushCols mul A B bid bw its s).
Proof.
  intros HA Hi Hc. revert s. induction its as [|k its IH]; intros s; [inversion Hi|]. cbn [pushCols]. destruct (decide (k = i)) as [->|Hne].
  - unfold pushCol.
    assert (E : (b <- get (colptr A) i ;; e <- get (colptr A) (i + 1) ;; Ok (b, e)) = Err OutOfBounds).
    { assert (Hl : length (colptr A) = c_cols A + 1) by apply (wf_len (csc_tr A) HA). unfold get at 1. destruct (colptr A !! i) as [b|]; [|reflexivity]. rewrite bind_Ok.
      unfold get. rewrite (proj2 (lookup_ge_None _ _)) by lia. reflexivity. }
    rewrite E. cbn [flift fbind]. constructor.
  - apply stuck_bind. intros r. apply IH. apply elem_of_cons in Hi as [Hi|Hi]; [congruence|exact Hi].
Qed.
Lemma outerThread_stuck bid nb bw its i : wf_csc A -> i ∈ its -> c_cols A <= i -> stuck (outerThread mul A B bid nb bw its).
Proof. intros HA Hi Hc. unfold outerThread. apply stuck_bind_l. exact (pushCols_stuck bid bw its i _ HA Hi Hc). Qed.
End Tall.

Lemma threads_ranges {V} (mul : V -> V -> V) (A : csc V) (B : csr V) rtb n nth offs nb bw : offsOk n nth offs ->
  outerThread2 mul A B rtb offs nb bw <$> seq 0 nth = outerThread mul A B (blockId2 rtb) nb bw <$> ranges offs nth.
Proof.
  intros Ho. unfold ranges. rewrite <- list_fmap_compose. apply list_fmap_ext. intros q t Ht. apply elem_of_list_lookup_2, elem_of_seq in Ht.
  destruct (ranges_at n nth offs t Ho ltac:(lia)) as (f & l & Ef & El). unfold outerThread2, compose. rewrite (get_Some _ _ _ Ef), bind_Ok, (get_Some _ _ _ El), bind_Ok. cbn [flift fbind].
  rewrite Ef, El. reflexivity.
Qed.

(** ** Everything *)
Section All2.
Context {V : Type} (mul add : V -> V -> V) (A : csc V) (B : csr V).
Notation triple := (nat * nat * V)%type.
Notation store := (gmap nat (obj V)).
Notation n := (c_rows A).
Notation T := (prods mul A B).
Hypothesis HA : wf_csc A.
Hypothesis HB : wf B.
Hypothesis Hin : c_cols A = rows B.
Context (nb bw nth : nat).
Hypothesis Hnb1 : 1 <= nb.
Hypothesis Hnb : (N.of_nat nb < 2 ^ 16)%N.
Hypothesis Hbw1 : 1 <= bw.
Hypothesis Hbw : (N.of_nat bw < 2 ^ 16)%N.
Hypothesis Hnth : 1 <= nth.
Context (top nts iA iB iC : nat) (s : store).
Hypothesis EA : s !! iA = Some (OCsc A).
Hypothesis EB : s !! iB = Some (OMat B).

Lemma outer2_err f o : doSymbolic A B nb nth = Err f -> Outer2_outcome mul add top nts nth iA iB iC nb bw s o <-> o = Err f.
Proof.
  intros E. unfold Outer2_outcome. cbv zeta. rewrite (u16_id nb Hnb), (u16_id bw Hbw).
  assert (E0 : (A <- deref_csc s iA ;; B <- deref s iB ;; '(rtb, offs, fl) <- doSymbolic A B nb nth ;; Ok (A, B, rtb, offs, fl)) = Err f).
  { unfold deref_csc, deref. rewrite EA, bind_Ok, EB, bind_Ok, E. reflexivity. }
  rewrite E0. unfold obind at 1, only at 1. split.
  - intros [(f' & Ef & ->)|(x & Ex & _)]; [|discriminate]. unfold only in Ef. injection Ef as ->. reflexivity.
  - intros ->. left. exists f. split; reflexivity.
Qed.

(** Dimensions that differ. *)
Lemma outer2_not_square : n <> c_cols A -> (exists o, Outer2_outcome mul add top nts nth iA iB iC nb bw s o) /\
  forall o, Outer2_outcome mul add top nts nth iA iB iC nb bw s o -> exists f, o = Err f.
Proof.
  intros Hne.
  assert (HE : forall f, doSymbolic A B nb nth = Err f -> (exists o, Outer2_outcome mul add top nts nth iA iB iC nb bw s o) /\
    forall o, Outer2_outcome mul add top nts nth iA iB iC nb bw s o -> exists f, o = Err f).
  { intros f E. split; [exists (Err f); apply (outer2_err f); [exact E|reflexivity]|]. intros o Ho. apply (outer2_err f o E) in Ho. eauto. }
  destruct (Nat.lt_ge_cases n (c_cols A)) as [L|L]; [exact (HE _ (doSymbolic_wide mul A B nb nth HA HB Hin L))|].
  destruct (N.lt_ge_cases (N.of_nat (length T)) (2 ^ 31)) as [Ht|Ht]; [|exact (HE _ (doSymbolic_many mul A B nb nth HA HB Hin L Ht))].
  destruct (doSymbolic_ok mul A B nb nth (length T) HA HB Hin Hnb1 Hnth ltac:(lia) L Ht) as (rtb & offs & blk & ES & Ho & _).
  { intros r _. unfold rowP, ofBlk. apply filter_length. }
  unfold Outer2_outcome. cbv zeta. rewrite (u16_id nb Hnb), (u16_id bw Hbw).
  assert (E0 : (A <- deref_csc s iA ;; B <- deref s iB ;; '(rtb, offs, fl) <- doSymbolic A B nb nth ;; Ok (A, B, rtb, offs, fl)) = Ok (A, B, rtb, offs, counts blk nb T)).
  { unfold deref_csc, deref. rewrite EA, bind_Ok, EB, bind_Ok, ES. reflexivity. }
  assert (HT : exists t p, (outerThread2 mul A B rtb offs nb bw <$> seq 0 nth) !! t = Some p /\ stuck p).
  { rewrite (threads_ranges mul A B rtb n nth offs nb bw Ho). assert (Hc : c_cols A ∈ mjoin (ranges offs nth)) by (rewrite (ranges_join n nth offs Ho); apply elem_of_seq; lia).
    apply elem_of_list_join in Hc as (its & Hc & Hi). apply elem_of_list_lookup in Hi as [t Hi]. exists t. eexists. split; [rewrite list_lookup_fmap, Hi; reflexivity|].
    apply (outerThread_stuck mul A B _ nb bw its (c_cols A) HA Hc). lia. }
  destruct HT as (t & p & Hp & Hst). setoid_rewrite (fun o => obind_only _ _ _ o E0). cbv iota beta.
  destruct (foldM _ _ _) as [y|f] eqn:E1.
  2:{ split; [exists (Err f); left; exists f; split; reflexivity|]. intros o [(f' & Ef & ->)|(x & Ex & _)]; [eauto|discriminate]. }
  rewrite bind_Ok. match goal with |- context [obind (only ?r)] => destruct r as [mx|f] eqn:E2 end.
  2:{ split; [exists (Err f); left; exists f; split; reflexivity|]. intros o [(f' & Ef & ->)|(x & Ex & _)]; [eauto|discriminate]. }
  setoid_rewrite (fun o => obind_only _ _ _ o (eq_refl (Ok mx))). split.
  - destruct (foutcome_exists ((replicate nb 0, (fun f => replicate f None) <$> counts blk nb T), outerThread2 mul A B rtb offs nb bw <$> seq 0 nth)) as [[m|f] Hm].
    + exfalso. revert Hm. apply (fun c H => stuck_never c t p m H Hst). exact Hp.
    + exists (Err f). left. eauto.
  - intros o [(f & _ & ->)|(m & Hm & _)]; [eauto|]. exfalso. revert Hm. apply (fun c H => stuck_never c t p m H Hst). exact Hp.
Qed.

Section Square.
Hypothesis Hsq : n = c_cols A.
Context (rtb : list (option nat)) (offs : list nat) (blk : nat -> nat).
Hypothesis ES : doSymbolic A B nb nth = Ok (rtb, offs, counts blk nb T).
Hypothesis Ho : offsOk n nth offs.
Hypothesis Hrtb : forall r, r < n -> rtb !! r = Some (Some (blk r)).
Hypothesis Hblk : forall r, r < n -> blk r < nb.

Lemma bid2_ok row : row < n -> blockId2 rtb row = Ok (blk row).
Proof. intros Hr. unfold blockId2. rewrite (getI_Some _ _ _ (Hrtb row Hr)), bind_Ok. rewrite u16_id; [reflexivity|]. specialize (Hblk row Hr). lia. Qed.

Lemma E0_square : (A <- deref_csc s iA ;; B <- deref s iB ;; '(rtb, offs, fl) <- doSymbolic A B nb nth ;; Ok (A, B, rtb, offs, fl)) = Ok (A, B, rtb, offs, counts blk nb T).
Proof. unfold deref_csc, deref. rewrite EA, bind_Ok, EB, bind_Ok, ES. reflexivity. Qed.

(** A block whose size in bytes is no int. *)
Lemma outer2_big b o : b < nb -> (2 ^ 27 <= N.of_nat (length (ofBlk blk b T)))%N -> Outer2_outcome mul add top nts nth iA iB iC nb bw s o <-> o = Err OutOfBounds.
Proof.
  intros Hb Hbig. unfold Outer2_outcome. cbv zeta. rewrite (u16_id nb Hnb), (u16_id bw Hbw), (obind_only _ _ _ _ E0_square).
  assert (E1 : forall l x, (exists f, f ∈ l /\ (2 ^ 27 <= N.of_nat f)%N) -> foldM (fun _ f => newTuples (N.of_nat f)) l x = Err OutOfBounds).
  { induction l as [|f l IH]; intros x (g & Hg & Hf); [inversion Hg|]. rewrite foldM_cons. unfold newTuples at 1.
    destruct (N.ltb_spec (16 * N.of_nat f) (2 ^ 31)) as [L|L]; [|reflexivity]. rewrite bind_Ok. apply IH.
    apply elem_of_cons in Hg as [->|Hg]; [lia|]. eauto. }
  specialize (E1 (counts blk nb T) 0%N ltac:(eexists; split; [apply (counts_elem mul A B Hin nb bw (blockId2 rtb) blk Hnb1 Hbw1 bid2_ok Hblk); exists b; eauto|exact Hbig])).
  rewrite E1. cbn [bind]. unfold obind at 1, only at 1. split.
  - intros [(f & Hf & ->)|(x & Hx & _)]; [injection Hf as ->; reflexivity|discriminate].
  - intros ->. left. exists OutOfBounds. split; reflexivity.
Qed.

Hypothesis Hlocal : (N.of_nat nb * N.of_nat bw < 2 ^ 27)%N.
Hypothesis Hfl : forall b, b < nb -> (N.of_nat (length (ofBlk blk b T)) < 2 ^ 27)%N.

Lemma counts2 : exists mx, (_ <- foldM (fun _ f => newTuples (N.of_nat f)) (counts blk nb T) 0%N ;;
               mx <- maxElement (counts blk nb T) ;;
               _ <- newTuples (N.of_nat mx) ;;
               _ <- newTuples (N.of_nat nb * N.of_nat bw) ;; Ok mx) = Ok mx /\ maxFl mul A B nb blk mx.
Proof.
  pose proof (counts_elem mul A B Hin nb bw (blockId2 rtb) blk Hnb1 Hbw1 bid2_ok Hblk) as CE.
  destruct (newTuples_all (counts blk nb T)) with (x := 0%N) as (y & ->).
  { intros f Hf. apply CE in Hf as (b & Hb & ->). apply Hfl, Hb. }
  rewrite bind_Ok. destruct (maxElement_ok (counts blk nb T)) as (mx & -> & H1 & H2).
  { unfold counts. rewrite fmap_length, seq_length. exact Hnb1. }
  rewrite bind_Ok. apply CE in H1 as (b & Hb & E). rewrite newTuples_ok by (rewrite E; apply Hfl, Hb). rewrite bind_Ok, newTuples_ok by exact Hlocal.
  exists mx. split; [reflexivity|]. split; [exists b; auto|]. intros c Hc. apply H2, CE. eauto.
Qed.

Notation lost0 mx := (n + nb + n + (nth + 1) + nb + nth + nth * mx).
Lemma outer2_front : exists mx, maxFl mul A B nb blk mx /\
  (forall o, Outer2_outcome mul add top nts nth iA iB iC nb bw s o ->
   exists G : list (list triple), Forall2 Permutation G ((fun b => ofBlk blk b T) <$> seq 0 nb) /\
     outerTail add key16 top nts iA iB iC nb n mx (lost0 mx) s (length <$> G) ((fun l : list triple => Some <$> l) <$> G) o) /\
  exists G : list (list triple), Forall2 Permutation G ((fun b => ofBlk blk b T) <$> seq 0 nb) /\
    forall o, outerTail add key16 top nts iA iB iC nb n mx (lost0 mx) s (length <$> G) ((fun l : list triple => Some <$> l) <$> G) o -> Outer2_outcome mul add top nts nth iA iB iC nb bw s o.
Proof.
  assert (Hs : schedule (c_cols A) (ranges offs nth)) by (unfold schedule; rewrite (ranges_join n nth offs Ho), Hsq; reflexivity).
  destruct counts2 as (mx & E1 & Hmx). exists mx. split; [exact Hmx|].
  destruct (region_ok mul A B HA HB Hin nb bw (blockId2 rtb) blk Hnb1 Hbw1 bid2_ok Hblk _ Hs) as [R1 (m & Hm)].
  rewrite <- (threads_ranges mul A B rtb n nth offs nb bw Ho) in R1, Hm.
  unfold Outer2_outcome. cbv zeta. rewrite (u16_id nb Hnb), (u16_id bw Hbw). split.
  - intros o Hout. rewrite (obind_only _ _ _ _ E0_square), (obind_only _ _ _ _ E1) in Hout.
    apply (obind_inv _ _ _ (fun '(cnts, blks) => exists G : list (list triple), cnts = length <$> G /\ blks = (fun l : list triple => Some <$> l) <$> G /\
      Forall2 Permutation G ((fun b => ofBlk blk b T) <$> seq 0 nb))) in Hout as ([cnts blks] & _ & (G & -> & -> & HG) & Hout).
    2:{ intros r Hr. destruct (R1 r Hr) as (G & -> & HG). eexists. split; [reflexivity|]. cbv iota. exists G. auto. }
    exists G. auto.
  - destruct (R1 m Hm) as (G & -> & HG). exists G. split; [exact HG|]. intros o Hout.
    apply (obind_only _ _ _ _ E0_square). apply (obind_only _ _ _ _ E1). right. exists (length <$> G, (fun l : list triple => Some <$> l) <$> G). split; [exact Hm|exact Hout].
Qed.

Section Keys2.
Hypothesis Hmono : forall r r', r <= r' -> blk r <= blk r'.
Hypothesis Hkey : forall b g, b < nb -> g ≡ₚ ofBlk blk b T -> keyOk key16 g.
Context (s1 : store) (nc lost : nat).
Hypothesis Hreset : resetCsr iA iB iC s = Ok (s1, n, nc, lost).

Lemma outer2_end : exists mx,
  (forall o, Outer2_outcome mul add top nts nth iA iB iC nb bw s o -> exists Ms, mergedOf add T (mjoin Ms) /\ outerEnd A top nts iC s1 nc lost (lost0 mx) Ms o) /\
  exists Ms, mergedOf add T (mjoin Ms) /\ forall o, outerEnd A top nts iC s1 nc lost (lost0 mx) Ms o -> Outer2_outcome mul add top nts nth iA iB iC nb bw s o.
Proof.
  destruct outer2_front as (mx & Hmx & HF & G & HG & HE). exists mx.
  assert (HS : forall G' : list (list triple), Forall2 Permutation G' ((fun b => ofBlk blk b T) <$> seq 0 nb) -> forall bufs : nat -> list (option triple), (forall b, length (bufs b) = mx) ->
    exists Ms, OuterProofs.sortsTo add A nb blk key16 bufs G' Ms /\ mergedOf add T (mjoin Ms)).
  { intros G' HG' bufs Hb. exact (blocks_sort mul add A B HA HB Hin nb (blockId2 rtb) blk key16 Hblk Hmono Hkey Hfl mx G' HG' Hmx bufs Hb). }
  split.
  - intros o Hout. destruct (HF o Hout) as (G' & HG' & Hr).
    destruct (rest_sorted add A B Hin nb (blockId2 rtb) blk key16 Hnb Hblk top nts iA iB iC s s1 nc lost Hreset (lost0 mx) mx G') as [X _].
    { intros bufs Hb. destruct (HS G' HG' bufs Hb) as (Ms & H1 & _). eauto. }
    destruct (X o Hr) as (bufs & Ms & Hb & H1 & Hend). destruct (HS G' HG' bufs Hb) as (Ms' & H1' & HM). rewrite (sortsTo_det add A nb blk key16 _ _ _ _ H1' H1) in HM. exists Ms. auto.
  - destruct (rest_sorted add A B Hin nb (blockId2 rtb) blk key16 Hnb Hblk top nts iA iB iC s s1 nc lost Hreset (lost0 mx) mx G) as [_ (bufs & Ms & Hb & H1 & X)].
    { intros bufs Hb. destruct (HS G HG bufs Hb) as (Ms & H1 & _). eauto. }
    destruct (HS G HG bufs Hb) as (Ms' & H1' & HM). rewrite (sortsTo_det add A nb blk key16 _ _ _ _ H1' H1) in HM.
    exists Ms. split; [exact HM|]. intros o Hout. apply HE, X; [|exact Hout].
    destruct (mjoin Ms) as [|[p v] l]; [right; reflexivity|left; exists v; exact I].
Qed.
End Keys2.
End Square.
End All2.

(** ** The key *)
Lemma key16_ok {V} (g : list (nat * nat * V)) : (forall x, x ∈ g -> (N.of_nat x.1.1 < 2 ^ 16)%N /\ (N.of_nat x.1.2 < 2 ^ 16)%N) -> keyOk key16 g.
Proof.
  intros H.
  assert (E : forall x, x ∈ g -> key16 x = (N.of_nat x.1.1 * 2 ^ 16 + N.of_nat x.1.2)%N).
  { intros x Hx. destruct (H x Hx) as [H1 H2]. unfold key16. rewrite (N.mod_small (N.shiftl _ _)) by (rewrite N.shiftl_mul_pow2; change (2 ^ 32)%N with (2 ^ 16 * 2 ^ 16)%N; nia).
    rewrite N.mod_small by (etransitivity; [exact H2|reflexivity]). apply lor_shift, H2. }
  split.
  - intros x Hx. rewrite (E x Hx). destruct (H x Hx). change (2 ^ 32)%N with (2 ^ 16 * 2 ^ 16)%N. nia.
  - intros x y Hx Hy. rewrite (E x Hx), (E y Hy). destruct (H x Hx), (H y Hy). intros Hle. destruct x as [[r c] v], y as [[r' c'] v']. cbn [fst snd] in *.
    destruct (Nat.lt_trichotomy r r') as [L|[->|L]]; [right; left; exact L| |nia]. destruct (Nat.lt_trichotomy c c') as [L|[->|L]]; [right; right; split; [reflexivity|exact L]|left; reflexivity|nia].
Qed.
