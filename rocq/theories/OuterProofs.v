(** OuterSpGEMM as a whole. *)
From Verif Require Export OuterMachProofs OuterThreadProofs OuterSortProofs OuterCopyProofs.
From Verif Require Import BaseProofs ConcProofs ScanProofs Assemble ParProofs RadixProofs LegacyScanProofs TwoPassProofs SortProofs.
From Verif Require Import Base Spec.

Section Join.
Context {V : Type} (add : V -> V -> V).
Notation triple := (nat * nat * V)%type.

(** ** Blocks put together *)
Lemma mergedOf_from g M (x : triple) : mergedOf add g M -> x ∈ M -> exists y, y ∈ g /\ y.1 = x.1.
Proof.
  intros (_ & H & _) Hx. destruct x as [p v]. destruct (H p v Hx) as (ord & Hp & Hs).
  destruct (filter (fun x : triple => x.1 = p) g) as [|y l] eqn:E.
  - simpl in Hp. apply Permutation_nil_r in Hp as ->. discriminate.
  - assert (Hy : y ∈ filter (fun x : triple => x.1 = p) g) by (rewrite E; left). apply elem_of_list_filter in Hy as [Hy1 Hy2]. exists y. split; [exact Hy2|exact Hy1].
Qed.

Lemma sorted_blocks (blk : nat -> nat) (Ms : list (list triple)) : forall b0, (forall r r', r <= r' -> blk r <= blk r') ->
  (forall b M, Ms !! b = Some M -> StronglySorted lt2 (fst <$> M) /\ forall x, x ∈ M -> blk x.1.1 = b0 + b) ->
  StronglySorted lt2 (fst <$> mjoin Ms) /\ forall x, x ∈ mjoin Ms -> b0 <= blk x.1.1.
Proof.
  induction Ms as [|M Ms IH]; intros b0 HR H; [split; [constructor|intros x Hx; inversion Hx]|].
  destruct (IH (S b0) HR) as [I1 I2].
  { intros b M' Hb. destruct (H (S b) M' Hb) as [H1 H2]. split; [exact H1|]. intros x Hx. rewrite (H2 x Hx). lia. }
  destruct (H 0 M eq_refl) as [H1 H2]. rewrite mjoin_cons, fmap_app. split.
  - apply SSorted_app; [exact H1|exact I1|]. intros p q Hp Hq. apply elem_of_list_fmap in Hp as (x & -> & Hx). apply elem_of_list_fmap in Hq as (y & -> & Hy).
    left. specialize (H2 x Hx). specialize (I2 y Hy). destruct (Nat.lt_ge_cases x.1.1 y.1.1) as [L|L]; [exact L|].
    pose proof (HR y.1.1 x.1.1 L). lia.
  - intros x Hx. apply elem_of_app in Hx as [Hx|Hx]; [rewrite (H2 x Hx); lia|]. specialize (I2 x Hx). lia.
Qed.

Lemma ofBlk_filter blk b p (T : list triple) : blk p.1 = b -> filter (fun x : triple => x.1 = p) (ofBlk blk b T) = filter (fun x : triple => x.1 = p) T.
Proof.
  intros Hp. unfold ofBlk. rewrite list_filter_filter. apply list_filter_iff. intros x. split; [tauto|]. intros E. split; [exact E|]. rewrite E. exact Hp.
Qed.

Lemma mergedOf_join (blk : nat -> nat) nb (T : list triple) Ms : (forall r r', r <= r' -> blk r <= blk r') -> (forall x, x ∈ T -> blk x.1.1 < nb) -> length Ms = nb ->
  (forall b M, Ms !! b = Some M -> mergedOf add (ofBlk blk b T) M) -> mergedOf add T (mjoin Ms).
Proof.
  intros HR HT Hl H.
  assert (Hb : forall b M x, Ms !! b = Some M -> x ∈ M -> blk x.1.1 = b).
  { intros b M x HM Hx. destruct (mergedOf_from _ _ x (H b M HM) Hx) as (y & Hy & E). apply elem_of_list_filter in Hy as [Hy _]. rewrite <- E. exact Hy. }
  split; [|split].
  - apply (sorted_blocks blk Ms 0 HR). intros b M HM. split; [apply (H b M HM)|]. intros x Hx. apply (Hb b M x HM Hx).
  - intros p v Hv. apply elem_of_list_join in Hv as (M & Hv & HM). apply elem_of_list_lookup in HM as (b & HM).
    destruct (proj1 (proj2 (H b M HM)) p v Hv) as (ord & Ho & Hs). exists ord. split; [|exact Hs]. rewrite Ho, ofBlk_filter; [reflexivity|].
    exact (Hb b M _ HM Hv).
  - intros x Hx. destruct (lookup_lt_is_Some_2 Ms (blk x.1.1)) as [M HM]; [rewrite Hl; apply HT, Hx|].
    assert (Hin : x.1 ∈ (fst <$> M)) by (apply (H _ _ HM), elem_of_list_filter; split; [reflexivity|exact Hx]).
    apply elem_of_list_fmap in Hin as (y & E & Hy). apply elem_of_list_fmap. exists y. split; [exact E|]. apply elem_of_list_join. exists M. split; [exact Hy|].
    eapply elem_of_list_lookup_2, HM.
Qed.

(** ** The rows of the merged list *)
Definition rowF (MM : list triple) (i : nat) : list (nat * V) := (fun x => (x.1.2, x.2)) <$> filter (fun x : triple => x.1.1 = i) MM.

Lemma rows_lt_S n (MM : list triple) : StronglySorted lt2 (fst <$> MM) ->
  filter (fun x : triple => x.1.1 < S n) MM = filter (fun x : triple => x.1.1 < n) MM ++ filter (fun x : triple => x.1.1 = n) MM.
Proof.
  induction MM as [|x MM IH]; intros Hs; [reflexivity|]. rewrite fmap_cons in Hs. inversion Hs as [|? ? Hs' Hf]; subst. specialize (IH Hs').
  rewrite !filter_cons. destruct (decide (x.1.1 < n)) as [H1|H1].
  - rewrite decide_True by lia. rewrite decide_False by lia. rewrite IH. reflexivity.
  - assert (E : filter (fun x : triple => x.1.1 < n) MM = []).
    { apply filter_none. intros y Hy. rewrite Forall_fmap, Forall_forall in Hf. destruct (Hf y Hy) as [L|[L _]]; cbn in L; lia. }
    destruct (decide (x.1.1 = n)) as [H2|H2].
    + rewrite decide_True by lia. rewrite IH, E. reflexivity.
    + rewrite decide_False by lia. rewrite IH. reflexivity.
Qed.

Lemma rowsOf_rowF n MM : StronglySorted lt2 (fst <$> MM) -> rowsOf (rowF MM) 0 n = (fun x : triple => (x.1.2, x.2)) <$> filter (fun x : triple => x.1.1 < n) MM.
Proof.
  intros Hs. induction n as [|n IH].
  - rewrite rowsOf_nil by lia. rewrite filter_none; [reflexivity|]. intros x _. lia.
  - rewrite rowsOf_S by lia. rewrite IH, (rows_lt_S n MM Hs), fmap_app. reflexivity.
Qed.

Lemma out_assemble nr nc (Ms : list (list triple)) : StronglySorted lt2 (fst <$> mjoin Ms) -> (forall x, x ∈ mjoin Ms -> x.1.1 < nr) ->
  mkCsr nr nc (length (mjoin Ms)) (pre (rowF (mjoin Ms)) <$> seq 0 (nr + 1)) (outIds Ms) (outVals Ms) = assemble (rowF (mjoin Ms)) nr nc.
Proof.
  intros Hs Hr. assert (E : rowsOf (rowF (mjoin Ms)) 0 nr = (fun x : triple => (x.1.2, x.2)) <$> mjoin Ms).
  { rewrite (rowsOf_rowF _ _ Hs), filter_all; [reflexivity|exact Hr]. }
  unfold assemble. f_equal.
  - pose proof (rowsOf_length (rowF (mjoin Ms)) 0 nr ltac:(lia)) as H. rewrite E, fmap_length, pre_0 in H. lia.
  - rewrite E. unfold outIds. rewrite <- list_fmap_compose. reflexivity.
  - rewrite E. unfold outVals. rewrite <- list_fmap_compose. reflexivity.
Qed.

Lemma outNbr_rowF nr (Ms : list (list triple)) : outNbr nr Ms = (fun i => length (rowF (mjoin Ms) i)) <$> seq 0 nr.
Proof. unfold outNbr, cntR, rowF. apply list_fmap_ext. intros i x _. rewrite fmap_length. reflexivity. Qed.

(** ** Prefix sums *)
Lemma scanned_iff top nts src N out o : 1 <= N -> N - 1 <= length src -> length out = N -> (N.of_nat N < 2 ^ 17)%N ->
  OuterModel.scanned top nts src N out o <-> o = Ok (psum 0 Nat.add src <$> seq 0 N).
Proof.
  intros H1 H2 H3 H4.
  assert (HS : forall l, lScan_always 0 Nat.add top src N nts out (Some <$> l) <-> l = psum 0 Nat.add src <$> seq 0 N).
  { intros l. unfold lScan_always, lIsSeq. rewrite (proj2 (N.ltb_lt _ _) H4). rewrite seqScan_ok by (try (intros; lia); lia).
    rewrite drop_ge by lia. rewrite app_nil_r. split.
    - intros E. injection E as E. apply (inj (fmap Some)). rewrite <- E, <- list_fmap_compose. reflexivity.
    - intros ->. rewrite <- list_fmap_compose. reflexivity. }
  unfold OuterModel.scanned. split.
  - intros [(l & Hl & ->)|[Hn _]]; [apply HS in Hl as ->; reflexivity|]. exfalso. apply Hn. eexists. apply HS. reflexivity.
  - intros ->. left. eexists. split; [apply HS; reflexivity|reflexivity].
Qed.

Lemma psum_sum_list (l : list nat) i : psum 0 Nat.add l i = sum_list (take i l).
Proof.
  unfold psum. generalize (take i l). intros k. clear.
  assert (H : forall a, fold_left Nat.add k a = a + sum_list k) by (induction k as [|x k IH]; intros a; simpl; [lia|]; rewrite IH; lia).
  apply H.
Qed.
Lemma psum_base (Ms : list (list triple)) i : psum 0 Nat.add (length <$> Ms) i = base Ms i.
Proof. rewrite psum_sum_list. unfold base. rewrite fmap_take. reflexivity. Qed.
Lemma base_all (Ms : list (list triple)) : base Ms (length Ms) = length (mjoin Ms).
Proof. unfold base. rewrite firstn_all. induction Ms as [|M Ms IH]; [reflexivity|]. rewrite fmap_cons, mjoin_cons, app_length, <- IH. reflexivity. Qed.

(** ** Sorting and merging all blocks *)
Lemma sortBlocks_ok key nb (G : list (list triple)) bufs : length G = nb ->
  (forall b g, G !! b = Some g -> (N.of_nat (length g) <= 2 ^ 64)%N /\ length g <= length (bufs b) /\ keyOk key g) ->
  exists Ms blks, sortBlocks add key bufs (length <$> G) ((fun l : list triple => Some <$> l) <$> G) nb = Ok (length <$> Ms, blks) /\
    Forall2 holdsL blks Ms /\ length Ms = nb /\ forall b g M, G !! b = Some g -> Ms !! b = Some M -> mergedOf add g M.
Proof.
  intros Hl HG. unfold sortBlocks.
  match goal with |- context [for_ 0 nb ?f ?s0] => destruct (for_inv (fun i (st : list nat * list (list (option triple))) => let '(ns, blks) := st in
    exists Ms, ns = length <$> Ms /\ Forall2 holdsL blks Ms /\ length Ms = i /\ forall b g M, G !! b = Some g -> Ms !! b = Some M -> mergedOf add g M)
    f 0 nb s0) as ([ns blks] & -> & (Ms & -> & H1 & H2 & H3)) end.
  - lia.
  - exists []. split; [reflexivity|]. split; [constructor|]. split; [reflexivity|]. intros b g M _ HM. rewrite lookup_nil in HM. discriminate.
  - intros i [ns blks] Hi (Ms & -> & H1 & H2 & H3). destruct (lookup_lt_is_Some_2 G i) as [g Hg]; [lia|].
    destruct (HG i g Hg) as (G1 & G2 & G3).
    rewrite (get_Some _ i (length g)) by (rewrite list_lookup_fmap, Hg; reflexivity). rewrite bind_Ok.
    rewrite (get_Some _ i (Some <$> g)) by (rewrite list_lookup_fmap, Hg; reflexivity). rewrite bind_Ok.
    destruct (sortBlock_ok add key g (bufs i) G1 G3 G2) as (M & blk & -> & HM1 & HM2). rewrite bind_Ok.
    eexists. split; [reflexivity|]. cbv beta iota. exists (Ms ++ [M]). rewrite fmap_app. split; [reflexivity|]. split; [apply Forall2_app; [exact H1|repeat constructor; apply HM1]|].
    split; [rewrite app_length; simpl; lia|]. intros b g' M' Hb HM'. destruct (Nat.lt_ge_cases b i) as [L|L].
    + rewrite lookup_app_l in HM' by lia. eapply H3; eassumption.
    + rewrite lookup_app_r in HM' by lia. apply list_lookup_singleton_Some in HM' as [E <-]. assert (b = i) as -> by lia. rewrite Hg in Hb. injection Hb as <-. exact HM2.
  - exists Ms, blks. auto.
Qed.
End Join.

Lemma obind_inv {R S} (P : res R -> Prop) (k : R -> res S -> Prop) o (Q : R -> Prop) :
  (forall r, P r -> exists x, r = Ok x /\ Q x) -> obind P k o -> exists x, P (Ok x) /\ Q x /\ k x o.
Proof.
  intros H [(f & Hf & _)|(x & Hx & Hk)]; [destruct (H _ Hf) as (x & E & _); discriminate|].
  destruct (H _ Hx) as (y & E & Hq). injection E as ->. exists y. auto.
Qed.
Lemma obind_only {R S} (x : R) (r : res R) (k : R -> res S -> Prop) o : r = Ok x -> obind (only r) k o <-> k x o.
Proof.
  intros ->. unfold obind, only. split; [intros [(f & E & _)|(y & E & Hy)]; [discriminate|injection E as ->; exact Hy]|intros H; right; eauto].
Qed.

(** ** Sizes *)
Lemma rowsPerBlock_ok n nb : 1 <= nb -> exists R, rowsPerBlock n nb = Ok R /\ R = Nat.max 64 ((n + nb - 1) / nb) /\ 64 <= R /\ (forall r, r < n -> r / R < nb) /\
  ((N.of_nat n <= 4096 * N.of_nat nb)%N -> (N.of_nat R <= 4096)%N).
Proof.
  intros Hnb. unfold rowsPerBlock. destruct (Nat.leb_spec n (nb * 64)) as [L|L].
  - exists 64. split; [reflexivity|]. split; [|split; [lia|split; [|lia]]].
    + rewrite Nat.max_l; [reflexivity|]. apply Nat.lt_succ_r. apply Nat.div_lt_upper_bound; lia.
    + intros r Hr. apply Nat.div_lt_upper_bound; lia.
  - destruct (Nat.eqb_spec nb 0) as [E|_]; [lia|]. set (R := (n + nb - 1) / nb).
    assert (H1 : n + nb - 1 = nb * R + (n + nb - 1) mod nb) by (apply Nat.div_mod_eq). pose proof (Nat.mod_upper_bound (n + nb - 1) nb ltac:(lia)) as H2.
    assert (H64 : 64 <= R) by (apply Nat.div_le_lower_bound; lia).
    exists R. split; [reflexivity|]. split; [lia|]. split; [exact H64|]. split.
    + intros r Hr. apply Nat.div_lt_upper_bound; [lia|]. nia.
    + intros H. assert (HR : R < 4097); [|lia]. apply Nat.div_lt_upper_bound; lia.
Qed.

Lemma newTuples_ok n : (n < 2 ^ 27)%N -> newTuples n = Ok n.
Proof. intros H. unfold newTuples. rewrite (proj2 (N.ltb_lt _ _)); [reflexivity|]. lia. Qed.

Lemma newTuples_all fl : (forall f, f ∈ fl -> (N.of_nat f < 2 ^ 27)%N) -> forall x, exists y, foldM (fun _ f => newTuples (N.of_nat f)) fl x = Ok y.
Proof.
  induction fl as [|f fl IH]; intros H x; [eexists; reflexivity|]. rewrite foldM_cons, newTuples_ok by (apply H; left). rewrite bind_Ok.
  apply IH. intros g Hg. apply H. right. exact Hg.
Qed.

Lemma maxElement_ok fl : 1 <= length fl -> exists mx, maxElement fl = Ok mx /\ mx ∈ fl /\ forall f, f ∈ fl -> f <= mx.
Proof.
  destruct fl as [|x fl]; [simpl; lia|]. intros _. exists (foldr Nat.max x fl). split; [reflexivity|]. induction fl as [|y fl [I1 I2]]; [split; [left|]|split].
  - intros f Hf. apply elem_of_list_singleton in Hf as ->. reflexivity.
  - simpl. destruct (Nat.max_spec y (foldr Nat.max x fl)) as [[_ ->]|[_ ->]]; [|right; left]. apply elem_of_cons in I1 as [->|I1]; [left|right; right; exact I1].
  - intros f Hf. simpl. apply elem_of_cons in Hf as [->|Hf]; [pose proof (I2 x ltac:(left)); lia|]. apply elem_of_cons in Hf as [->|Hf]; [lia|].
    pose proof (I2 f ltac:(right; exact Hf)). lia.
Qed.

Section Whole.
Context {V : Type} (mul add : V -> V -> V) (A : csc V) (B : csr V).
Notation triple := (nat * nat * V)%type.
Notation store := (gmap nat (obj V)).
Hypothesis HA : wf_csc A.
Hypothesis HB : wf B.
Hypothesis Hin : c_cols A = rows B.
Context (nb bw : nat) (bid : nat -> res nat) (blk : nat -> nat) (key : triple -> N).
(** The products, in the order of the columns. *)
Definition prods : list triple := colsTriples mul A B (seq 0 (c_cols A)).

Lemma prods_range x : x ∈ prods -> x.1.1 < c_rows A /\ x.1.2 < cols B.
Proof.
  intros Hx. unfold prods, colsTriples, colTriples, entTriples in Hx. apply elem_of_list_join in Hx as (l & Hx & Hl). apply elem_of_list_fmap in Hl as (k & -> & _).
  apply elem_of_list_join in Hx as (l & Hx & Hl). apply elem_of_list_fmap in Hl as ([r a] & -> & Ha). apply elem_of_list_fmap in Hx as ([c v] & -> & Hb). cbn.
  split; [exact (row_entries_range (csc_tr A) k r a HA Ha)|exact (row_entries_range B k c v HB Hb)].
Qed.

Lemma colsTriples_perm l1 l2 : l1 ≡ₚ l2 -> colsTriples mul A B l1 ≡ₚ colsTriples mul A B l2.
Proof. intros H. unfold colsTriples. rewrite H. reflexivity. Qed.

Definition maxFl (mx : nat) : Prop := (exists b, b < nb /\ mx = length (ofBlk blk b prods)) /\ forall b, b < nb -> length (ofBlk blk b prods) <= mx.

(** What follows the copy. *)
Definition outerEnd (top nts iC : nat) (s1 : store) (nc lost lost0 : nat) (Ms : list (list triple)) : res (store * nat) -> Prop :=
  obind (OuterModel.scanned top nts (outNbr (c_rows A) Ms) (c_rows A + 1) (Some 0 :: replicate (c_rows A) None)) (fun rp =>
  only (Ok (<[iC := OMat (mkCsr (c_rows A) nc (length (mjoin Ms)) rp (outIds Ms) (outVals Ms))]> s1, lost + lost0))).

(** ** The parallel region *)
Section Region.
Hypothesis Hnb1 : 1 <= nb.
Hypothesis Hbw1 : 1 <= bw.
Hypothesis Hbid : forall row, row < c_rows A -> bid row = Ok (blk row).
Hypothesis Hblk : forall r, r < c_rows A -> blk r < nb.

Lemma threads_ok asg : schedule (c_cols A) asg -> exists chss,
  Forall2 (fun p chs => runs p [] chs tt) (outerThread mul A B bid nb bw <$> asg) chss /\
  (forall chs ch, chs ∈ chss -> ch ∈ chs -> ch.1 < nb) /\
  forall b, b < nb -> allOf chss b ≡ₚ ofBlk blk b prods.
Proof.
  intros Hs.
  assert (H : exists chss, Forall2 (fun its c => runs (outerThread mul A B bid nb bw its) [] c tt /\ (forall ch, ch ∈ c -> ch.1 < nb) /\
    forall b, b < nb -> ofBlock b c = ofBlk blk b (colsTriples mul A B its)) asg chss).
  { assert (Ha : forall its, its ∈ asg -> forall i, i ∈ its -> i < c_cols A).
    { intros its Hits i Hi. apply elem_of_list_lookup in Hits as [t Ht]. exact (sch_lt _ _ _ _ _ Hs Ht Hi). }
    clear Hs. induction asg as [|its asg IH]; [exists []; constructor|]. destruct IH as [chss Hc]; [intros its' H'; apply Ha; right; exact H'|].
    destruct (outerThread_ok mul A B bid blk nb bw HA HB Hin Hbid Hblk Hbw1 its (Ha its ltac:(left))) as (c & H1 & H2 & H3). exists (c :: chss). constructor; [auto|exact Hc]. }
  destruct H as (chss & H). exists chss. split; [|split].
  - clear Hs. induction H as [|its c asg chss (H1 & _) Hf IH]; [constructor|]. rewrite fmap_cons. constructor; [exact H1|exact IH].
  - intros chs ch Hc Hch. apply elem_of_list_lookup in Hc as [t Ht]. destruct (Forall2_lookup_r _ _ _ _ _ H Ht) as (its & _ & _ & H2 & _). apply H2, Hch.
  - intros b Hb. unfold allOf, prods. etransitivity; [|unfold ofBlk; rewrite (colsTriples_perm (seq 0 (c_cols A)) (mjoin asg)) by (symmetry; exact Hs); reflexivity].
    clear Hs. induction H as [|its c asg chss (_ & _ & H3) Hf IH]; [reflexivity|]. rewrite fmap_cons, !mjoin_cons, IH.
    unfold colsTriples. rewrite fmap_app, mjoin_app, filter_app. rewrite (H3 b Hb). reflexivity.
Qed.

Lemma counts_elem f : f ∈ counts blk nb prods <-> exists b, b < nb /\ f = length (ofBlk blk b prods).
Proof.
  unfold counts. rewrite elem_of_list_fmap. split; intros (b & H1 & H2); exists b; [apply elem_of_seq in H2; split; [lia|exact H1]|split; [exact H2|apply elem_of_seq; lia]].
Qed.

Lemma counts_prods : (N.of_nat nb * N.of_nat bw < 2 ^ 27)%N -> (forall b, b < nb -> (N.of_nat (length (ofBlk blk b prods)) < 2 ^ 27)%N) ->
  exists mx, (_ <- foldM (fun _ f => newTuples (N.of_nat f)) (counts blk nb prods) 0%N ;;
               mx <- maxElement (counts blk nb prods) ;;
               _ <- newTuples (N.of_nat nb * N.of_nat bw) ;;
               _ <- newTuples (N.of_nat mx) ;; Ok mx) = Ok mx /\ maxFl mx.
Proof.
  intros Hlocal Hfl. destruct (newTuples_all (counts blk nb prods)) with (x := 0%N) as (y & ->).
  { intros f Hf. apply counts_elem in Hf as (b & Hb & ->). apply Hfl, Hb. }
  rewrite bind_Ok. destruct (maxElement_ok (counts blk nb prods)) as (mx & -> & H1 & H2).
  { unfold counts. rewrite fmap_length, seq_length. exact Hnb1. }
  rewrite bind_Ok, newTuples_ok, bind_Ok by exact Hlocal. apply counts_elem in H1 as (b & Hb & E). rewrite newTuples_ok by (rewrite E; apply Hfl, Hb).
  exists mx. split; [reflexivity|]. split; [exists b; auto|]. intros c Hc. apply H2, counts_elem. eauto.
Qed.

Lemma region_ok asg : schedule (c_cols A) asg ->
  (forall m, foutcome ((replicate nb 0, (fun f => replicate f None) <$> counts blk nb prods), outerThread mul A B bid nb bw <$> asg) m ->
   exists G : list (list triple), m = Ok (length <$> G, (fun l : list triple => Some <$> l) <$> G) /\ Forall2 Permutation G ((fun b => ofBlk blk b prods) <$> seq 0 nb)) /\
  exists m, foutcome ((replicate nb 0, (fun f => replicate f None) <$> counts blk nb prods), outerThread mul A B bid nb bw <$> asg) m.
Proof.
  intros Hs. destruct (threads_ok asg Hs) as (chss & H1 & H2 & H3).
  assert (E : counts blk nb prods = (fun b => length (allOf chss b)) <$> seq 0 nb).
  { unfold counts. apply list_fmap_ext. intros i b Hb. apply elem_of_list_lookup_2, elem_of_seq in Hb. symmetry. apply Permutation_length, H3. lia. }
  assert (HG : Forall2 Permutation (allOf chss <$> seq 0 nb) ((fun b => ofBlk blk b prods) <$> seq 0 nb)).
  { apply Forall2_fmap, Forall_Forall2_diag, Forall_forall. intros b Hb. apply elem_of_seq in Hb. apply H3. lia. }
  rewrite E. split.
  - intros m Hm. destruct (phase_out _ chss nb H1 H2 m Hm) as (G & -> & Hp). exists G. split; [reflexivity|]. exact (Forall2_transitive _ _ _ _ _ _ (fun x y z => @Permutation_trans _ x y z) Hp HG).
  - exact (phase_exists _ chss nb H1 H2).
Qed.

End Region.

(** ** The rest *)
Section Rest.
Hypothesis Hnb : (N.of_nat nb < 2 ^ 16)%N.
Hypothesis Hblk : forall r, r < c_rows A -> blk r < nb.
Context (top nts iA iB iC : nat) (s s1 : store) (nc lost : nat).
Hypothesis Hreset : resetCsr iA iB iC s = Ok (s1, c_rows A, nc, lost).

(** Given what sorting the blocks results in. *)
Definition sortsTo (bufs : nat -> list (option triple)) (G Ms : list (list triple)) : Prop :=
  exists blks, sortBlocks add key bufs (length <$> G) ((fun l : list triple => Some <$> l) <$> G) nb = Ok (length <$> Ms, blks) /\
    Forall2 holdsL blks Ms /\ length Ms = nb /\ (forall b M x, Ms !! b = Some M -> x ∈ M -> blk x.1.1 = b /\ x.1.1 < c_rows A).

Lemma rest_sorted lost0 mx (G : list (list triple)) : (forall bufs : nat -> list (option triple), (forall b, length (bufs b) = mx) -> exists Ms, sortsTo bufs G Ms) ->
  (forall o, outerTail add key top nts iA iB iC nb (c_rows A) mx lost0 s (length <$> G) ((fun l : list triple => Some <$> l) <$> G) o ->
     exists bufs Ms, (forall b, length (bufs b) = mx) /\ sortsTo bufs G Ms /\ outerEnd top nts iC s1 nc lost lost0 Ms o) /\
  exists bufs Ms, (forall b, length (bufs b) = mx) /\ sortsTo bufs G Ms /\
     ((exists v : V, True) \/ mjoin Ms = [] -> forall o, outerEnd top nts iC s1 nc lost lost0 Ms o ->
     outerTail add key top nts iA iB iC nb (c_rows A) mx lost0 s (length <$> G) ((fun l : list triple => Some <$> l) <$> G) o).
Proof.
  intros Hsort.
  assert (Hcum : forall Ms : list (list triple), length Ms = nb -> forall o, OuterModel.scanned top nts (length <$> Ms) (nb + 1) (replicate (nb + 1) (Some 0)) o <->
    o = Ok (base Ms <$> seq 0 (nb + 1))).
  { intros Ms HMs o. rewrite scanned_iff by (rewrite ?replicate_length, ?fmap_length; lia).
    replace (psum 0 Nat.add (length <$> Ms) <$> seq 0 (nb + 1)) with (base Ms <$> seq 0 (nb + 1)); [reflexivity|].
    apply list_fmap_ext. intros i x _. symmetry. apply psum_base. }
  assert (Htot : forall Ms : list (list triple), length Ms = nb ->
    (total <- get (base Ms <$> seq 0 (nb + 1)) nb ;; '(s1, nr, nc, lost) <- resetCsr iA iB iC s ;; Ok (total, s1, nr, nc, lost)) =
    Ok (length (mjoin Ms), s1, c_rows A, nc, lost)).
  { intros Ms HMs. rewrite (get_Some _ nb (base Ms nb)) by (rewrite list_lookup_fmap, lookup_seq_lt by lia; reflexivity). rewrite bind_Ok, Hreset, bind_Ok.
    rewrite <- HMs, base_all. reflexivity. }
  assert (Hcop : forall Ms blks (ids0 : list nat) (vals0 : list V) o, Forall2 holdsL blks Ms -> length Ms = nb ->
    (forall b M x, Ms !! b = Some M -> x ∈ M -> blk x.1.1 = b /\ x.1.1 < c_rows A) -> length ids0 = length (mjoin Ms) -> length vals0 = length (mjoin Ms) ->
    copied (base Ms <$> seq 0 (nb + 1)) (length <$> Ms) blks nb (copyMem (replicate (c_rows A) 0) ids0 vals0) o <->
    o = Ok (outNbr (c_rows A) Ms, outIds Ms, outVals Ms)).
  { intros Ms blks ids0 vals0 o H1 H2 H3 H4 H5. apply (copied_iff blk); try assumption; [reflexivity|].
    intros b Hb. rewrite list_lookup_fmap, lookup_seq_lt by lia. reflexivity. }
  unfold outerTail. split.
  - intros o Ho. apply (obind_inv _ _ _ (fun '(ns, blks) => exists bufs Ms, (forall b, length (bufs b) = mx) /\ sortsTo bufs G Ms /\ ns = length <$> Ms /\ Forall2 holdsL blks Ms /\ length Ms = nb /\
      (forall b M x, Ms !! b = Some M -> x ∈ M -> blk x.1.1 = b /\ x.1.1 < c_rows A))) in Ho as ([ns blks] & _ & (bufs & Ms & Hb & HS & -> & H2 & H3 & H5) & Ho).
    2:{ intros r (bufs & Hb & ->). destruct (Hsort bufs Hb) as (Ms & HS). destruct HS as (blks & E & H2 & H3 & H5). eexists. split; [exact E|]. cbv iota. exists bufs, Ms.
        split; [exact Hb|]. split; [exists blks; auto|]. auto. }
    apply (obind_inv _ _ _ (fun cum => cum = base Ms <$> seq 0 (nb + 1))) in Ho as (cum & _ & -> & Ho).
    2:{ intros r Hr. apply (Hcum Ms H3) in Hr as ->. eauto. }
    rewrite (obind_only _ _ _ _ (Htot Ms H3)) in Ho.
    apply (obind_inv _ _ _ (fun x => x = (outNbr (c_rows A) Ms, outIds Ms, outVals Ms))) in Ho as (x & _ & -> & Ho).
    2:{ intros r (ids0 & vals0 & L1 & L2 & Hc). apply (Hcop Ms blks) in Hc as ->; eauto. }
    exists bufs, Ms. split; [exact Hb|]. split; [exact HS|]. exact Ho.
  - destruct (Hsort (fun _ => replicate mx None)) as (Ms & HS); [intros; apply replicate_length|]. pose proof HS as (blks & E & H2 & H3 & H5).
    exists (fun _ => replicate mx None), Ms. split; [intros; apply replicate_length|]. split; [exact HS|]. intros Hv o Ho.
    assert (exists vals0 : list V, length vals0 = length (mjoin Ms)) as (vals0 & Hv0).
    { destruct Hv as [[v _]|E0]; [|rewrite E0]; [exists (replicate (length (mjoin Ms)) v); apply replicate_length|exists []; reflexivity]. }
    right. eexists. split; [exists (fun _ => replicate mx None); split; [intros; apply replicate_length|symmetry; exact E]|]. cbv iota.
    right. eexists. split; [apply Hcum; [exact H3|reflexivity]|]. apply (obind_only _ _ _ _ (Htot Ms H3)).
    right. exists (outNbr (c_rows A) Ms, outIds Ms, outVals Ms). split; [|exact Ho].
    exists (replicate (length (mjoin Ms)) 0), vals0. split; [apply replicate_length|]. split; [exact Hv0|]. apply (Hcop Ms blks); auto using replicate_length.
Qed.
End Rest.

Definition newC (nc : nat) (MM : list triple) : csr V := assemble (rowF MM) (c_rows A) nc.

(** ** Everything, while keys fit *)
Section All.
Hypothesis Hblk : forall r, r < c_rows A -> blk r < nb.
Hypothesis Hmono : forall r r', r <= r' -> blk r <= blk r'.
Hypothesis Hkey : forall b g, b < nb -> g ≡ₚ ofBlk blk b prods -> keyOk key g.
Hypothesis Hfl : forall b, b < nb -> (N.of_nat (length (ofBlk blk b prods)) < 2 ^ 27)%N.

Lemma blocks_sort mx (G : list (list triple)) : Forall2 Permutation G ((fun b => ofBlk blk b prods) <$> seq 0 nb) -> maxFl mx ->
  forall bufs : nat -> list (option triple), (forall b, length (bufs b) = mx) -> exists Ms, sortsTo bufs G Ms /\ mergedOf add prods (mjoin Ms).
Proof.
  intros HG [_ Hmx] bufs Hbufs.
  assert (HlG : length G = nb) by (rewrite (Forall2_length _ _ _ HG), fmap_length, seq_length; reflexivity).
  assert (HGb : forall b g, G !! b = Some g -> b < nb /\ g ≡ₚ ofBlk blk b prods).
  { intros b g Hg. assert (Hb : b < nb) by (apply lookup_lt_Some in Hg; lia). split; [exact Hb|].
    destruct (Forall2_lookup_l _ _ _ _ _ HG Hg) as (y & Hy & Hp). rewrite list_lookup_fmap, lookup_seq_lt in Hy by exact Hb. injection Hy as <-. exact Hp. }
  destruct (sortBlocks_ok add key nb G bufs HlG) as (Ms & blks & H1 & H2 & H3 & H4).
  { intros b g Hg. destruct (HGb b g Hg) as [Hb Hp]. specialize (Hfl b Hb). rewrite (Permutation_length Hp). split; [lia|]. split; [rewrite Hbufs; apply Hmx, Hb|].
    exact (Hkey b g Hb Hp). }
  assert (HM : forall b M, Ms !! b = Some M -> mergedOf add (ofBlk blk b prods) M).
  { intros b M HMb. destruct (lookup_lt_is_Some_2 G b) as [g Hg]; [apply lookup_lt_Some in HMb; lia|]. destruct (HGb b g Hg) as [_ Hp].
    eapply mergedOf_perm; [exact Hp|]. eapply H4; eassumption. }
  exists Ms. split.
  - exists blks. split; [exact H1|]. split; [exact H2|]. split; [exact H3|].
    intros b M x HMb Hx. destruct (mergedOf_from add _ _ x (HM b M HMb) Hx) as (y & Hy & E). apply elem_of_list_filter in Hy as [Hy1 Hy2]. rewrite <- E.
    split; [exact Hy1|apply prods_range, Hy2].
  - apply (mergedOf_join add blk nb prods Ms Hmono); [|exact H3|exact HM]. intros x Hx. apply Hblk, prods_range, Hx.
Qed.

Lemma sortsTo_det bufs G Ms Ms' : sortsTo bufs G Ms -> sortsTo bufs G Ms' -> Ms = Ms'.
Proof.
  intros (blks & E & H & L & _) (blks' & E' & H' & L' & _). rewrite E in E'. injection E' as EL <-.
  apply list_eq_same_length with nb; [exact L'|exact L|]. intros b M M' Hb HM HM'.
  destruct (Forall2_lookup_r _ _ _ _ _ H HM) as (k & Hk & K1 & K2). destruct (Forall2_lookup_r _ _ _ _ _ H' HM') as (k' & Hk' & K1' & K2'). rewrite Hk in Hk'. injection Hk' as <-.
  assert (HL : length M = length M').
  { assert (Some (length M) = Some (length M')) as E2; [|injection E2; auto]. pose proof (f_equal (fun l => l !! b) EL) as E3. cbv beta in E3. rewrite !list_lookup_fmap, HM, HM' in E3. exact E3. }
  apply list_eq_same_length with (length M); [exact (eq_sym HL)|reflexivity|]. intros q x y Hq Hx Hy. apply K2 in Hx. apply K2' in Hy. congruence.
Qed.

End All.

Section End_.
Context (top nts iC : nat) (s1 : store) (nc lost : nat).
Lemma end_ok lost0 Ms o : (N.of_nat (c_rows A + 1) < 2 ^ 17)%N -> mergedOf add prods (mjoin Ms) ->
  outerEnd top nts iC s1 nc lost lost0 Ms o <-> o = Ok (<[iC := OMat (newC nc (mjoin Ms))]> s1, lost + lost0).
Proof.
  intros Hrows HM.
  assert (Hrp : forall o, OuterModel.scanned top nts (outNbr (c_rows A) Ms) (c_rows A + 1) (Some 0 :: replicate (c_rows A) None) o <->
    o = Ok (pre (rowF (mjoin Ms)) <$> seq 0 (c_rows A + 1))).
  { intros o'. rewrite scanned_iff; [|lia|unfold outNbr; rewrite fmap_length, seq_length; lia|simpl; rewrite replicate_length; lia|exact Hrows].
    replace (psum 0 Nat.add (outNbr (c_rows A) Ms) <$> seq 0 (c_rows A + 1)) with (pre (rowF (mjoin Ms)) <$> seq 0 (c_rows A + 1)); [reflexivity|].
    apply list_fmap_ext. intros i x Hx. apply elem_of_list_lookup_2, elem_of_seq in Hx. rewrite outNbr_rowF. symmetry. apply psum_lengths. lia. }
  assert (E : mkCsr (c_rows A) nc (length (mjoin Ms)) (pre (rowF (mjoin Ms)) <$> seq 0 (c_rows A + 1)) (outIds Ms) (outVals Ms) = newC nc (mjoin Ms)).
  { apply out_assemble; [apply HM|]. intros x Hx. destruct (mergedOf_from add prods _ x HM Hx) as (y & Hy & <-). apply prods_range, Hy. }
  unfold outerEnd. split.
  - intros Ho. apply (obind_inv _ _ _ (fun x => x = pre (rowF (mjoin Ms)) <$> seq 0 (c_rows A + 1))) in Ho as (x & _ & -> & Ho).
    2:{ intros r Hr. apply Hrp in Hr as ->. eauto. }
    unfold only in Ho. rewrite Ho, E. reflexivity.
  - intros ->. right. eexists. split; [apply Hrp; reflexivity|]. unfold only. rewrite E. reflexivity.
Qed.

Lemma end_large lost0 Ms o : (2 ^ 17 <= N.of_nat (c_rows A + 1))%N -> 1 <= nts <= c_rows A + 1 ->
  outerEnd top nts iC s1 nc lost lost0 Ms o <-> o = Err OutOfBounds.
Proof.
  intros HN Hnts.
  assert (Hn : ~ exists l, lScan_always 0 Nat.add top (outNbr (c_rows A) Ms) (c_rows A + 1) nts (Some 0 :: replicate (c_rows A) None) (Some <$> l)).
  { intros (l & Q).
    assert (Hf : region_outcome (lRegion 0 Nat.add top (outNbr (c_rows A) Ms) (c_rows A + 1) nts) tt (lMem 0 (Some 0 :: replicate (c_rows A) None) nts) (replicate nts tt) (Err OutOfBounds)).
    { apply lregion_fails; try (intros; lia); [simpl; rewrite replicate_length; lia|unfold outNbr; rewrite fmap_length, seq_length; lia]. }
    unfold lScan_always in Q. replace (lIsSeq (c_rows A + 1)) with false in Q by (symmetry; apply N.ltb_ge; exact HN).
    destruct Q as (m & Qs & _). apply (region_always_outcome _ _ _ _ _ _ _ _ Qs) in Hf. discriminate. }
  unfold outerEnd, OuterModel.scanned. split.
  - intros [(f & [(l & _ & E)|[_ E]] & ->)|(x & [(l & Hl & E)|[_ E]] & _)]; [discriminate|injection E as ->; reflexivity| |discriminate]. exfalso. apply Hn. eauto.
  - intros ->. left. exists OutOfBounds. split; [right; split; [exact Hn|reflexivity]|reflexivity].
Qed.
End End_.

Lemma resetCsr_ok iA iB iC (s : store) C0 : s !! iA = Some (OCsc A) -> s !! iB = Some (OMat B) -> s !! iC = Some (OMat C0) -> (iC = iB -> nnz B <> 0) ->
  exists s1 lost, resetCsr iA iB iC s = Ok (s1, c_rows A, cols B, lost) /\ forall o, <[iC := o]> s1 = <[iC := o]> s.
Proof.
  intros EA EB EC Halias. unfold resetCsr. unfold deref at 1. rewrite EC, bind_Ok. cbv zeta.
  assert (HiA : iC <> iA) by (intros ->; rewrite EA in EC; discriminate).
  unfold deref_csc. unfold deref. destruct (Nat.eqb_spec (nnz C0) 0) as [E|E].
  - assert (HiB : iC <> iB) by (intros ->; rewrite EB in EC; injection EC as <-; exact (Halias eq_refl E)).
    rewrite lookup_insert_ne, EA, bind_Ok by exact HiA. rewrite lookup_insert_ne, EB, bind_Ok by exact HiB.
    eexists _, _. split; [reflexivity|]. intros o. apply insert_insert.
  - rewrite EA, bind_Ok, EB, bind_Ok. eexists _, _. split; reflexivity.
Qed.
(** C is B, without entries. *)
Lemma resetCsr_alias iA iB (s : store) : s !! iA = Some (OCsc A) -> s !! iB = Some (OMat B) -> nnz B = 0 ->
  exists s1 lost, resetCsr iA iB iB s = Ok (s1, c_rows A, 0, lost) /\ forall o, <[iB := o]> s1 = <[iB := o]> s.
Proof.
  intros EA EB E. unfold resetCsr. unfold deref at 1. rewrite EB, bind_Ok. cbv zeta. rewrite E. cbn [Nat.eqb].
  assert (HiA : iB <> iA) by (intros ->; rewrite EA in EB; discriminate).
  unfold deref_csc, deref. rewrite lookup_insert_ne, EA, bind_Ok by exact HiA. rewrite lookup_insert, bind_Ok. cbn [cols].
  eexists _, _. split; [reflexivity|]. intros o. apply insert_insert.
Qed.
End Whole.

(** ** OuterSpGEMM of outer_mult.h *)
Section Static.
Context {V : Type} (mul add : V -> V -> V) (A : csc V) (B : csr V).
Notation triple := (nat * nat * V)%type.
Notation store := (gmap nat (obj V)).
Hypothesis HA : wf_csc A.
Hypothesis HB : wf B.
Hypothesis Hin : c_cols A = rows B.
Context (nb bw R : nat).
Notation blk := (fun r => r / R).
Notation bid := (fun row => Ok (blockId R row)).
Notation prods := (prods mul A B).
Hypothesis Hnb1 : 1 <= nb.
Hypothesis Hnb : (N.of_nat nb < 2 ^ 16)%N.
Hypothesis Hbw1 : 1 <= bw.
Hypothesis Hbw : (N.of_nat bw < 2 ^ 16)%N.
Hypothesis Hblk : forall r, r < c_rows A -> r / R < nb.

Lemma bid_ok : forall row, row < c_rows A -> bid row = Ok (blk row).
Proof. intros row Hr. cbv beta. rewrite (blockId_eq R nb row (Hblk row Hr) Hnb). reflexivity. Qed.

(** The outcomes are those of the rest, for blocks that hold the products in some order. *)
Lemma outer_front top nts nth iA iB iC (s : store) : rowsPerBlock (c_rows A) nb = Ok R -> 1 <= nth -> s !! iA = Some (OCsc A) -> s !! iB = Some (OMat B) ->
  (N.of_nat nb * N.of_nat bw < 2 ^ 27)%N -> (forall b, b < nb -> (N.of_nat (length (ofBlk blk b prods)) < 2 ^ 27)%N) ->
  exists mx, maxFl mul A B nb blk mx /\
  (forall o, Outer_outcome mul add top nts nth iA iB iC nb bw s o ->
   exists nthr (G : list (list triple)), 1 <= nthr <= nth /\ Forall2 Permutation G ((fun b => ofBlk blk b prods) <$> seq 0 nb) /\
     outerTail add (key2 R) top nts iA iB iC nb (c_rows A) mx (c_rows A + nb + nth + nthr * mx) s (length <$> G) ((fun l : list triple => Some <$> l) <$> G) o) /\
  exists G : list (list triple), Forall2 Permutation G ((fun b => ofBlk blk b prods) <$> seq 0 nb) /\
    forall o, outerTail add (key2 R) top nts iA iB iC nb (c_rows A) mx (c_rows A + nb + nth + 1 * mx) s (length <$> G) ((fun l : list triple => Some <$> l) <$> G) o -> Outer_outcome mul add top nts nth iA iB iC nb bw s o.
Proof.
  intros HR0 Hnth EA EB Hlocal Hfl. unfold Outer_outcome. cbv zeta. rewrite (u16_id nb Hnb), (u16_id bw Hbw).
  assert (E0 : (A <- deref_csc s iA ;; B <- deref s iB ;; R <- rowsPerBlock (c_rows A) nb ;; Ok (A, B, R)) = Ok (A, B, R)).
  { unfold deref_csc, deref. rewrite EA, bind_Ok, EB, bind_Ok, HR0. reflexivity. }
  destruct (counts_prods mul A B Hin nb bw bid blk Hnb1 Hbw1 bid_ok Hblk Hlocal Hfl) as (mx & E1 & Hmx). exists mx. split; [exact Hmx|]. split.
  - intros o Ho. rewrite (obind_only _ _ _ _ E0) in Ho.
    apply (obind_inv _ _ _ (fun fl => fl = counts blk nb prods)) in Ho as (fl & _ & -> & Ho).
    2:{ intros r (asg & Hs & ->). rewrite (symbolic_ok mul A B R nb HA HB Hin Hblk Hnb asg Hs). eexists. split; reflexivity. }
    rewrite (obind_only _ _ _ _ E1) in Ho.
    apply (obind_inv _ _ _ (fun '(nthr, (cnts, blks)) => 1 <= nthr <= nth /\ exists G : list (list triple), cnts = length <$> G /\ blks = (fun l : list triple => Some <$> l) <$> G /\
      Forall2 Permutation G ((fun b => ofBlk blk b prods) <$> seq 0 nb))) in Ho as ([nthr [cnts blks]] & _ & (Hn & G & -> & -> & HG) & Ho).
    2:{ intros r (asg & m & Hs & Hn & Hm & ->). destruct (proj1 (region_ok mul A B HA HB Hin nb bw bid blk Hnb1 Hbw1 bid_ok Hblk asg Hs) m Hm) as (G & -> & HG). eexists. split; [reflexivity|]. cbv iota. split; [exact Hn|]. exists G. auto. }
    exists nthr, G. auto.
  - assert (Hs : schedule (c_cols A) [seq 0 (c_cols A)]) by apply sched_one.
    destruct (region_ok mul A B HA HB Hin nb bw bid blk Hnb1 Hbw1 bid_ok Hblk _ Hs) as [R1 (m & Hm)]. destruct (R1 m Hm) as (G & -> & HG). exists G. split; [exact HG|]. intros o Ho.
    apply (obind_only _ _ _ _ E0). right. exists (counts blk nb prods). split.
    { exists [seq 0 (c_cols A)]. split; [exact Hs|]. symmetry. apply (symbolic_ok mul A B R nb HA HB Hin Hblk Hnb _ Hs). }
    apply (obind_only _ _ _ _ E1). right. exists (1, (length <$> G, (fun l : list triple => Some <$> l) <$> G)). split; [|exact Ho].
    eexists _, _. split; [exact Hs|]. split; [simpl; lia|]. split; [exact Hm|]. reflexivity.
Qed.

(** A block whose size in bytes is no int. *)
Lemma outer_big top nts nth iA iB iC (s : store) b o : rowsPerBlock (c_rows A) nb = Ok R -> s !! iA = Some (OCsc A) -> s !! iB = Some (OMat B) ->
  b < nb -> (2 ^ 27 <= N.of_nat (length (ofBlk blk b prods)))%N -> Outer_outcome mul add top nts nth iA iB iC nb bw s o <-> o = Err OutOfBounds.
Proof.
  intros HR0 EA EB Hb Hbig. unfold Outer_outcome. cbv zeta. rewrite (u16_id nb Hnb), (u16_id bw Hbw).
  assert (E0 : (A <- deref_csc s iA ;; B <- deref s iB ;; R <- rowsPerBlock (c_rows A) nb ;; Ok (A, B, R)) = Ok (A, B, R)).
  { unfold deref_csc, deref. rewrite EA, bind_Ok, EB, bind_Ok, HR0. reflexivity. }
  rewrite (obind_only _ _ _ _ E0).
  assert (E1 : forall l x, (exists f, f ∈ l /\ (2 ^ 27 <= N.of_nat f)%N) -> foldM (fun _ f => newTuples (N.of_nat f)) l x = Err OutOfBounds).
  { induction l as [|f l IH]; intros x (g & Hg & Hf); [inversion Hg|]. rewrite foldM_cons. unfold newTuples at 1.
    destruct (N.ltb_spec (16 * N.of_nat f) (2 ^ 31)) as [L|L]; [|reflexivity]. rewrite bind_Ok. apply IH.
    apply elem_of_cons in Hg as [->|Hg]; [lia|]. eauto. }
  specialize (E1 (counts blk nb prods) 0%N ltac:(eexists; split; [apply (counts_elem mul A B Hin nb bw bid blk Hnb1 Hbw1 bid_ok Hblk); exists b; eauto|exact Hbig])).
  split.
  - intros Ho. apply (obind_inv _ _ _ (fun fl => fl = counts blk nb prods)) in Ho as (fl & _ & -> & Ho).
    2:{ intros r (asg & Hs & ->). rewrite (symbolic_ok mul A B R nb HA HB Hin Hblk Hnb asg Hs). eexists. split; reflexivity. }
    rewrite E1 in Ho. cbn [bind] in Ho. destruct Ho as [(f & Hf & ->)|(x & Hx & _)]; [unfold only in Hf; injection Hf as ->; reflexivity|discriminate].
  - intros ->. right. exists (counts blk nb prods). split.
    { exists [seq 0 (c_cols A)]. split; [apply sched_one|]. symmetry. apply (symbolic_ok mul A B R nb HA HB Hin Hblk Hnb _ (sched_one _)). }
    rewrite E1. left. exists OutOfBounds. split; reflexivity.
Qed.

Section Keys.
Hypothesis HR0 : rowsPerBlock (c_rows A) nb = Ok R.
Hypothesis HR1 : 1 <= R.
Hypothesis HR : (N.of_nat R <= 4096)%N.
Hypothesis Hcols : (N.of_nat (cols B) <= 2 ^ 20)%N.
Hypothesis Hlocal : (N.of_nat nb * N.of_nat bw < 2 ^ 27)%N.
Hypothesis Hfl : forall b, b < nb -> (N.of_nat (length (ofBlk blk b prods)) < 2 ^ 27)%N.
Context (top nts nth iA iB iC : nat) (s s1 : store) (nc lost : nat).
Hypothesis Hnth : 1 <= nth.
Hypothesis EA : s !! iA = Some (OCsc A).
Hypothesis EB : s !! iB = Some (OMat B).
Hypothesis Hreset : resetCsr iA iB iC s = Ok (s1, c_rows A, nc, lost).

Lemma key2_prods b g : b < nb -> g ≡ₚ ofBlk blk b prods -> keyOk (key2 R) g.
Proof.
  intros Hb Hp. apply (key2_ok add R b g HR HR1). intros x Hx. rewrite Hp in Hx. apply elem_of_list_filter in Hx as [Hx Hx2]. split; [exact Hx|].
  destruct (prods_range mul A B HA HB x Hx2) as [_ Hc]. lia.
Qed.
Lemma div_mono r r' : r <= r' -> r / R <= r' / R.
Proof. intros H. apply Nat.div_le_mono; [lia|exact H]. Qed.

Lemma outer_end : exists mx, maxFl mul A B nb blk mx /\
  (forall o, Outer_outcome mul add top nts nth iA iB iC nb bw s o -> exists nthr Ms, 1 <= nthr <= nth /\ mergedOf add prods (mjoin Ms) /\
     outerEnd A top nts iC s1 nc lost (c_rows A + nb + nth + nthr * mx) Ms o) /\
  exists Ms, mergedOf add prods (mjoin Ms) /\ forall o, outerEnd A top nts iC s1 nc lost (c_rows A + nb + nth + 1 * mx) Ms o -> Outer_outcome mul add top nts nth iA iB iC nb bw s o.
Proof.
  destruct (outer_front top nts nth iA iB iC s HR0 Hnth EA EB Hlocal Hfl) as (mx & Hmx & HF & G & HG & HE). exists mx. split; [exact Hmx|]. split.
  - intros o Ho. destruct (HF o Ho) as (nthr & G' & Hn & HG' & Hr).
    destruct (rest_sorted add A B Hin nb bid blk (key2 R) Hnb Hblk top nts iA iB iC s s1 nc lost Hreset (c_rows A + nb + nth + nthr * mx) mx G') as [X _].
    { intros bufs Hb. destruct (blocks_sort mul add A B HA HB Hin nb bid blk (key2 R) Hblk div_mono key2_prods Hfl mx G' HG' Hmx bufs Hb) as (Ms & HS & _). eauto. }
    destruct (X o Hr) as (bufs & Ms & Hb & HS & Hend). destruct (blocks_sort mul add A B HA HB Hin nb bid blk (key2 R) Hblk div_mono key2_prods Hfl mx G' HG' Hmx bufs Hb) as (Ms' & HS' & HM). rewrite (sortsTo_det add A nb blk (key2 R) _ _ _ _ HS' HS) in HM. exists nthr, Ms. auto.
  - destruct (rest_sorted add A B Hin nb bid blk (key2 R) Hnb Hblk top nts iA iB iC s s1 nc lost Hreset (c_rows A + nb + nth + 1 * mx) mx G) as [_ (bufs & Ms & Hb & HS & X)].
    { intros bufs Hb. destruct (blocks_sort mul add A B HA HB Hin nb bid blk (key2 R) Hblk div_mono key2_prods Hfl mx G HG Hmx bufs Hb) as (Ms & HS & _). eauto. }
    destruct (blocks_sort mul add A B HA HB Hin nb bid blk (key2 R) Hblk div_mono key2_prods Hfl mx G HG Hmx bufs Hb) as (Ms' & HS' & HM). rewrite (sortsTo_det add A nb blk (key2 R) _ _ _ _ HS' HS) in HM.
    exists Ms. split; [exact HM|]. intros o Ho. apply HE, X; [|exact Ho].
    destruct (mjoin Ms) as [|[p v] l]; [right; reflexivity|left; exists v; exact I].
Qed.

End Keys.
End Static.
