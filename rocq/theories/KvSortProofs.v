(** Proofs about the key-value merge sort. *)
From Verif Require Import KvSortModel BaseProofs.

Section KvSort.
Context {V : Type} (dflt : V) (W : nat).
Notation pair := (nat * V)%type.

(** Stable merge of two lists of pairs. *)
Fixpoint lmerge (l1 : list pair) : list pair -> list pair :=
  fix go (l2 : list pair) : list pair :=
    match l1, l2 with
    | [], _ => l2
    | _, [] => l1
    | x :: l1', y :: l2' => if fst x <=? fst y then x :: lmerge l1' l2 else y :: go l2'
    end.
Lemma lmerge_nil_l l : lmerge [] l = l.
Proof. destruct l; reflexivity. Qed.
Lemma lmerge_nil_r l : lmerge l [] = l.
Proof. destruct l; reflexivity. Qed.
Lemma lmerge_cons x l1 y l2 : lmerge (x :: l1) (y :: l2) = if fst x <=? fst y then x :: lmerge l1 (y :: l2) else y :: lmerge (x :: l1) l2.
Proof. reflexivity. Qed.

Lemma lmerge_perm l1 l2 : lmerge l1 l2 ≡ₚ l1 ++ l2.
Proof.
  revert l2. induction l1 as [|x l1 IH1]; intros l2; [rewrite lmerge_nil_l; reflexivity|].
  induction l2 as [|y l2 IH2]; [rewrite lmerge_nil_r, app_nil_r; reflexivity|].
  rewrite lmerge_cons. destruct (fst x <=? fst y).
  - rewrite IH1. reflexivity.
  - rewrite IH2. rewrite <- (Permutation_middle (x :: l1) l2 y). reflexivity.
Qed.
Lemma lmerge_length l1 l2 : length (lmerge l1 l2) = length l1 + length l2.
Proof. rewrite lmerge_perm, app_length. reflexivity. Qed.

Notation ksorted l := (StronglySorted (fun x y : pair => fst x <= fst y) l).
Lemma lmerge_sorted l1 l2 : ksorted l1 -> ksorted l2 -> ksorted (lmerge l1 l2).
Proof.
  revert l2. induction l1 as [|x l1 IH1]; intros l2 H1 H2; [rewrite lmerge_nil_l; exact H2|].
  induction l2 as [|y l2 IH2]; [rewrite lmerge_nil_r; exact H1|].
  rewrite lmerge_cons. pose proof H1 as H1'. pose proof H2 as H2'. apply StronglySorted_inv in H1' as [S1 F1]. apply StronglySorted_inv in H2' as [S2 F2].
  rewrite Forall_forall in F1, F2. destruct (Nat.leb_spec (fst x) (fst y)).
  - constructor; [apply IH1; assumption|]. rewrite Forall_forall. intros z Hz. rewrite lmerge_perm in Hz. apply elem_of_app in Hz as [Hz|Hz]; [auto|].
    apply elem_of_cons in Hz as [->|Hz]; [assumption|]. specialize (F2 _ Hz). lia.
  - constructor; [apply IH2; assumption|]. rewrite Forall_forall. intros z Hz. rewrite lmerge_perm in Hz. apply elem_of_app in Hz as [Hz|Hz]; [|auto].
    apply elem_of_cons in Hz as [->|Hz]; [lia|]. specialize (F1 _ Hz). lia.
Qed.
(** Equal keys stay in order. *)
Lemma lmerge_stable k l1 l2 : ksorted l1 ->
  filter (fun x : pair => fst x = k) (lmerge l1 l2) = filter (fun x : pair => fst x = k) l1 ++ filter (fun x : pair => fst x = k) l2.
Proof.
  revert l2. induction l1 as [|x l1 IH1]; intros l2 H1; [rewrite lmerge_nil_l; reflexivity|].
  induction l2 as [|y l2 IH2]; [rewrite lmerge_nil_r, filter_nil, app_nil_r; reflexivity|].
  rewrite lmerge_cons. pose proof H1 as H1'. apply StronglySorted_inv in H1' as [S1 F1]. rewrite Forall_forall in F1. destruct (Nat.leb_spec (fst x) (fst y)).
  - rewrite filter_cons, IH1 by assumption. rewrite (filter_cons _ x l1). destruct (decide (fst x = k)); reflexivity.
  - rewrite filter_cons, IH2. destruct (decide (fst y = k)) as [E|E].
    + rewrite (filter_cons_True _ y l2) by exact E. assert (Hn : filter (fun x : pair => fst x = k) (x :: l1) = []).
      { destruct (filter (fun x : pair => fst x = k) (x :: l1)) as [|z l] eqn:Ef; [reflexivity|]. exfalso.
        assert (Hz : z ∈ filter (fun x : pair => fst x = k) (x :: l1)) by (rewrite Ef; left).
        apply elem_of_list_filter in Hz as [Hzk Hz]. apply elem_of_cons in Hz as [->|Hz]; [lia|]. specialize (F1 _ Hz). lia. }
      rewrite Hn. reflexivity.
    + rewrite (filter_cons_False _ y l2) by exact E. reflexivity.
Qed.

Notation kv := (@kvst V).

(** The copy loops. *)
Lemma copyLeft_ok left mid (nn : list nat) (ns : list V) tn ts L : mid + 1 = left + length L ->
  (forall a x, L !! a = Some x -> nn !! (left + a) = Some (fst x) /\ ns !! (left + a) = Some (snd x)) ->
  mid < length tn -> mid < length ts ->
  exists tn' ts', kvCopyLeft left mid (nn, ns, tn, ts) = Ok (nn, ns, tn', ts') /\ length tn' = length tn /\ length ts' = length ts /\
    (forall a x, L !! a = Some x -> tn' !! (left + a) = Some (fst x) /\ ts' !! (left + a) = Some (snd x)).
Proof.
  intros Hm HL H1 H2. unfold kvCopyLeft.
  destruct (for_inv (fun i (s : kv) => exists tn' ts', s = (nn, ns, tn', ts') /\ length tn' = length tn /\ length ts' = length ts /\
     (forall a x, left + a < i -> L !! a = Some x -> tn' !! (left + a) = Some (fst x) /\ ts' !! (left + a) = Some (snd x)))
    (fun i '(nn, ns, tn, ts) => x <- get nn i ;; tn <- set_ tn i x ;; y <- get ns i ;; ts <- set_ ts i y ;; Ok (nn, ns, tn, ts))
    left (mid + 1) (nn, ns, tn, ts)) as (r & Hr & tn' & ts' & -> & L1 & L2 & Hv).
  - lia.
  - exists tn, ts. split; [reflexivity|]. split; [reflexivity|]. split; [reflexivity|]. intros; lia.
  - intros i s Hi (tn' & ts' & -> & L1 & L2 & Hv).
    destruct (lookup_lt_is_Some_2 L (i - left)) as [x Hx]; [lia|]. destruct (HL _ _ Hx) as [Hn Hs]. replace (left + (i - left)) with i in Hn, Hs by lia.
    rewrite (get_Some _ _ _ Hn), bind_Ok, set_Ok, bind_Ok, (get_Some _ _ _ Hs), bind_Ok, set_Ok, bind_Ok by lia. eexists. split; [reflexivity|].
    exists (<[i:=fst x]> tn'), (<[i:=snd x]> ts'). rewrite !insert_length. split; [reflexivity|]. split; [exact L1|]. split; [exact L2|].
    intros a y Ha Hy. destruct (decide (left + a = i)) as [E|Hne].
    + replace (i - left) with a in Hx by lia. rewrite Hx in Hy. injection Hy as <-. rewrite E, !list_lookup_insert by lia. auto.
    + rewrite !list_lookup_insert_ne by lia. apply Hv; [lia|exact Hy].
  - exists tn', ts'. split; [exact Hr|]. split; [exact L1|]. split; [exact L2|]. intros a x Hx. apply Hv; [|exact Hx].
    apply lookup_lt_Some in Hx. lia.
Qed.

Lemma copyRight_ok mid right (nn : list nat) (ns : list V) tn ts R : right = mid + length R ->
  (forall b x, R !! b = Some x -> nn !! (mid + 1 + b) = Some (fst x) /\ ns !! (mid + 1 + b) = Some (snd x)) ->
  right < length tn -> right < length ts ->
  exists tn' ts' j, kvCopyRight W mid right (nn, ns, tn, ts) = Ok ((nn, ns, tn', ts'), j) /\ length tn' = length tn /\ length ts' = length ts /\
    (forall b x, R !! b = Some x -> tn' !! (right - b) = Some (fst x) /\ ts' !! (right - b) = Some (snd x)) /\
    (forall p, p <= mid -> tn' !! p = tn !! p /\ ts' !! p = ts !! p).
Proof.
  intros Hm HR H1 H2. unfold kvCopyRight.
  destruct (for_inv (fun i (s : kv * nat) => exists tn' ts', s = ((nn, ns, tn', ts'), right - (i - (mid + 1))) /\ length tn' = length tn /\ length ts' = length ts /\
     (forall p, mid < p < i -> tn' !! p = fst <$> R !! (right - p) /\ ts' !! p = snd <$> R !! (right - p)) /\
     (forall p, p <= mid -> tn' !! p = tn !! p /\ ts' !! p = ts !! p))
    (fun i '((nn, ns, tn, ts), j) => y <- get ns j ;; ts <- set_ ts i y ;; x <- get nn j ;; tn <- set_ tn i x ;; Ok ((nn, ns, tn, ts), decW W j))
    (mid + 1) (right + 1) ((nn, ns, tn, ts), right)) as (r & Hr & tn' & ts' & -> & L1 & L2 & Hv & Hk).
  - lia.
  - exists tn, ts. split; [f_equal; lia|]. split; [reflexivity|]. split; [reflexivity|]. split; [intros; lia|auto].
  - intros i s Hi (tn' & ts' & -> & L1 & L2 & Hv & Hk).
    destruct (lookup_lt_is_Some_2 R (right - i)) as [x Hx]; [lia|]. destruct (HR _ _ Hx) as [Hn Hs].
    replace (mid + 1 + (right - i)) with (right - (i - (mid + 1))) in Hn, Hs by lia.
    rewrite (get_Some _ _ _ Hs), bind_Ok, set_Ok, bind_Ok, (get_Some _ _ _ Hn), bind_Ok, set_Ok, bind_Ok by lia. eexists. split; [reflexivity|].
    exists (<[i:=fst x]> tn'), (<[i:=snd x]> ts'). rewrite !insert_length. split.
    { f_equal. unfold decW. destruct (Nat.eqb_spec (right - (i - (mid + 1))) 0); lia. }
    split; [exact L1|]. split; [exact L2|]. split.
    + intros p Hp. destruct (decide (p = i)) as [->|Hne].
      * rewrite Hx, !list_lookup_insert by lia. auto.
      * rewrite !list_lookup_insert_ne by lia. apply Hv. lia.
    + intros p Hp. rewrite !list_lookup_insert_ne by lia. apply Hk. exact Hp.
  - exists tn', ts', (right - (right + 1 - (mid + 1))). split; [exact Hr|]. split; [exact L1|]. split; [exact L2|]. split; [|exact Hk].
    intros b x Hx. pose proof (lookup_lt_Some _ _ _ Hx). destruct (Hv (right - b) ltac:(lia)) as [-> ->].
    replace (right - (right - b)) with b by lia. rewrite Hx. auto.
Qed.

(** Overwriting the front of a range. *)
Lemma insert_mid {A} (pref done rest post : list A) (x y : A) k : k = length pref + length done ->
  <[k := x]> (pref ++ done ++ (y :: rest) ++ post) = pref ++ (done ++ [x]) ++ rest ++ post.
Proof.
  intros ->. rewrite insert_app_r. rewrite <- (Nat.add_0_r (length done)), insert_app_r. simpl. rewrite <- !app_assoc. reflexivity.
Qed.
Lemma drop_cons {A} (l : list A) k : k < length l -> exists x, drop k l = x :: drop (S k) l /\ l !! k = Some x.
Proof. intros H. destruct (lookup_lt_is_Some_2 l k H) as [x Hx]. exists x. split; [apply drop_S, Hx|exact Hx]. Qed.

Lemma merge_ok left mid right kpre kpost vpre vpost (L R X : list pair) tn ts : length kpre = left -> length vpre = left ->
  mid + 1 = left + length L -> right = mid + length R -> 1 <= length L -> 1 <= length R -> ksorted L -> X = L ++ R ->
  (forall a x, L !! a = Some x -> tn !! (left + a) = Some (fst x) /\ ts !! (left + a) = Some (snd x)) ->
  (forall b x, R !! b = Some x -> tn !! (right - b) = Some (fst x) /\ ts !! (right - b) = Some (snd x)) ->
  exists i j, kvMerge W left mid right (kpre ++ (fst <$> X) ++ kpost, vpre ++ (snd <$> X) ++ vpost, tn, ts) =
    Ok ((kpre ++ (fst <$> lmerge L R) ++ kpost, vpre ++ (snd <$> lmerge L R) ++ vpost, tn, ts), i, j).
Proof.
  intros Lk Lv HL HR L1 R1 SL -> Ht Hu. unfold kvMerge. set (M := lmerge L R). set (X := L ++ R).
  assert (HM : length M = length X) by (unfold M, X; rewrite lmerge_length, app_length; reflexivity).
  assert (HX : length X = length L + length R) by (unfold X; apply app_length).
  destruct (for_inv (fun k (s : kv * nat * nat) => exists a b, a <= length L /\ b <= length R /\ k = left + a + b /\
     s = ((kpre ++ (fst <$> take (a + b) M) ++ (fst <$> drop (a + b) X) ++ kpost, vpre ++ (snd <$> take (a + b) M) ++ (snd <$> drop (a + b) X) ++ vpost, tn, ts), left + a, right - b) /\
     lmerge (drop a L) (drop b R) = drop (a + b) M)
    (fun k '((nn, ns, tn, ts), i, j) => a <- get tn i ;; b <- get tn j ;;
      if (a <=? b) && (i <=? mid) then nn <- set_ nn k a ;; y <- get ts i ;; ns <- set_ ns k y ;; Ok ((nn, ns, tn, ts), i + 1, j)
      else nn <- set_ nn k b ;; y <- get ts j ;; ns <- set_ ns k y ;; Ok ((nn, ns, tn, ts), i, decW W j))
    left (right + 1) ((kpre ++ (fst <$> X) ++ kpost, vpre ++ (snd <$> X) ++ vpost, tn, ts), left, right)) as (r & Hr & a & b & Ha & Hb & Hk & -> & _).
  - lia.
  - exists 0, 0. split; [lia|]. split; [lia|]. split; [lia|]. split; [|rewrite !drop_0; reflexivity].
    simpl. rewrite !drop_0, Nat.add_0_r, Nat.sub_0_r. reflexivity.
  - intros k s Hk (a & b & Ha & Hb & Ek & -> & Hm).
    assert (Hpick : forall z, M !! (a + b) = Some z -> forall i j : nat,
      (nn <- set_ (kpre ++ (fst <$> take (a + b) M) ++ (fst <$> drop (a + b) X) ++ kpost) k (fst z) ;;
       ns <- set_ (vpre ++ (snd <$> take (a + b) M) ++ (snd <$> drop (a + b) X) ++ vpost) k (snd z) ;; Ok ((nn, ns, tn, ts), i, j)) =
      Ok ((kpre ++ (fst <$> take (S (a + b)) M) ++ (fst <$> drop (S (a + b)) X) ++ kpost, vpre ++ (snd <$> take (S (a + b)) M) ++ (snd <$> drop (S (a + b)) X) ++ vpost, tn, ts), i, j)).
    { intros z Hz i j. pose proof (lookup_lt_Some _ _ _ Hz). destruct (drop_cons X (a + b) ltac:(lia)) as (w & Ew & _). rewrite Ew, !fmap_cons.
      rewrite !set_Ok, bind_Ok by (rewrite !app_length, fmap_length, take_length; simpl; lia). rewrite bind_Ok.
      rewrite !insert_mid by (rewrite fmap_length, take_length; lia). rewrite (take_S_r M (a + b) z Hz), !fmap_app. reflexivity. }
    destruct (decide (a = length L)) as [EL|NL].
    + (* left half used up *)
      subst a. destruct (drop_cons R b ltac:(lia)) as (y & Ey & Hy). destruct (Hu _ _ Hy) as [Htj Hsj].
      assert (Hi : is_Some (tn !! (left + length L))).
      { destruct (lookup_lt_is_Some_2 R (length R - 1)) as [z Hz]; [lia|]. destruct (Hu _ _ Hz) as [Htz _].
        replace (left + length L) with (right - (length R - 1)) by lia. rewrite Htz. eauto. }
      destruct Hi as [ti Hti]. rewrite (get_Some _ _ _ Hti), bind_Ok, (get_Some _ _ _ Htj), bind_Ok.
      destruct (Nat.leb_spec (left + length L) mid); [lia|]. rewrite andb_false_r. rewrite (get_Some _ _ _ Hsj).
      rewrite (drop_ge L) in Hm by lia. rewrite lmerge_nil_l, Ey in Hm.
      assert (Hz : M !! (length L + b) = Some y) by (rewrite <- (Nat.add_0_r (length L + b)), <- lookup_drop, <- Hm; reflexivity).
      cbn [bind]. rewrite (Hpick y Hz). eexists. split; [reflexivity|]. exists (length L), (S b).
      replace (length L + S b) with (S (length L + b)) by lia. split; [lia|]. split; [lia|]. split; [lia|]. split.
      * f_equal. unfold decW. destruct (Nat.eqb_spec (right - b) 0); lia.
      * rewrite (drop_ge L) by lia. rewrite lmerge_nil_l. destruct (drop_cons M (length L + b) ltac:(eapply lookup_lt_Some, Hz)) as (w & Ew & _). congruence.
    + destruct (drop_cons L a ltac:(lia)) as (x & Ex & Hx). destruct (Ht _ _ Hx) as [Hti Hsi].
      destruct (decide (b = length R)) as [ER|NR].
      * (* right half used up: the comparison is with the last cell of the left half *)
        subst b. destruct (lookup_lt_is_Some_2 L (length L - 1)) as [z Hz]; [lia|]. destruct (Ht _ _ Hz) as [Htz _].
        replace (left + (length L - 1)) with (right - length R) in Htz by lia.
        assert (Hle : fst x <= fst z).
        { destruct (decide (a = length L - 1)) as [E|Hne]; [assert (x = z) by congruence; subst; lia|].
          assert (Hs : forall l i j (u w : pair), ksorted l -> i < j -> l !! i = Some u -> l !! j = Some w -> fst u <= fst w).
          { clear. intros l i j u w Hs. revert i j. induction Hs as [|h l Hs IH Hf]; intros i j Hij Hi Hj; [discriminate|].
            destruct i as [|i], j as [|j]; try lia; simpl in Hi, Hj; [|apply (IH i j); auto; lia].
            injection Hi as ->. rewrite Forall_lookup in Hf. eapply Hf, Hj. }
          eapply (Hs L a (length L - 1)); eauto. lia. }
        rewrite (get_Some _ _ _ Hti), bind_Ok, (get_Some _ _ _ Htz), bind_Ok. destruct (Nat.leb_spec (fst x) (fst z)); [|lia].
        destruct (Nat.leb_spec (left + a) mid); [|lia]. cbn [andb]. rewrite (get_Some _ _ _ Hsi).
        rewrite (drop_ge R) in Hm by lia. rewrite lmerge_nil_r, Ex in Hm.
        assert (HzM : M !! (a + length R) = Some x) by (rewrite <- (Nat.add_0_r (a + length R)), <- lookup_drop, <- Hm; reflexivity).
        cbn [bind]. rewrite (Hpick x HzM). eexists. split; [reflexivity|]. exists (S a), (length R).
        replace (S a + length R) with (S (a + length R)) by lia. split; [lia|]. split; [lia|]. split; [lia|]. split; [f_equal; f_equal; lia|].
        rewrite (drop_ge R) by lia. rewrite lmerge_nil_r. destruct (drop_cons M (a + length R) ltac:(eapply lookup_lt_Some, HzM)) as (w & Ew & _). congruence.
      * destruct (drop_cons R b ltac:(lia)) as (y & Ey & Hy). destruct (Hu _ _ Hy) as [Htj Hsj].
        rewrite (get_Some _ _ _ Hti), bind_Ok, (get_Some _ _ _ Htj), bind_Ok. destruct (Nat.leb_spec (left + a) mid); [|lia]. rewrite andb_true_r.
        rewrite Ex, Ey, lmerge_cons in Hm. destruct (fst x <=? fst y).
        -- rewrite (get_Some _ _ _ Hsi).
           assert (Hz : M !! (a + b) = Some x) by (rewrite <- (Nat.add_0_r (a + b)), <- lookup_drop, <- Hm; reflexivity).
           cbn [bind]. rewrite (Hpick x Hz). eexists. split; [reflexivity|]. exists (S a), b.
           replace (S a + b) with (S (a + b)) by lia. split; [lia|]. split; [lia|]. split; [lia|]. split; [f_equal; f_equal; lia|].
           rewrite Ey. destruct (drop_cons M (a + b) ltac:(eapply lookup_lt_Some, Hz)) as (w & Ew & _). congruence.
        -- rewrite (get_Some _ _ _ Hsj).
           assert (Hz : M !! (a + b) = Some y) by (rewrite <- (Nat.add_0_r (a + b)), <- lookup_drop, <- Hm; reflexivity).
           cbn [bind]. rewrite (Hpick y Hz). eexists. split; [reflexivity|]. exists a, (S b).
           replace (a + S b) with (S (a + b)) by lia. split; [lia|]. split; [lia|]. split; [lia|]. split.
           ++ f_equal. unfold decW. destruct (Nat.eqb_spec (right - b) 0); lia.
           ++ rewrite Ex. destruct (drop_cons M (a + b) ltac:(eapply lookup_lt_Some, Hz)) as (w & Ew & _). congruence.
  - exists (left + a), (right - b). etransitivity; [exact Hr|]. rewrite take_ge, drop_ge by lia. reflexivity.
Qed.

(** What a stable sort of [X] is. *)
Definition is_stable_sort (X Y : list pair) : Prop :=
  Y ≡ₚ X /\ ksorted Y /\ forall k, filter (fun x : pair => fst x = k) Y = filter (fun x : pair => fst x = k) X.

Lemma mergesort_ok fuel : forall (X : list pair) left right kpre kpost vpre vpost tn ts, length kpre = left -> length vpre = left ->
  right + 1 = left + length X -> 1 <= length X -> 2 * right <= W -> right < length tn -> right < length ts -> length X <= fuel ->
  exists Y tn' ts', kvMergesort W fuel (kpre ++ (fst <$> X) ++ kpost, vpre ++ (snd <$> X) ++ vpost, tn, ts) left right =
    Ok (kpre ++ (fst <$> Y) ++ kpost, vpre ++ (snd <$> Y) ++ vpost, tn', ts') /\ is_stable_sort X Y /\ length tn' = length tn /\ length ts' = length ts.
Proof.
  induction fuel as [|fuel IH]; intros X left right kpre kpost vpre vpost tn ts Lk Lv Hr Hx HW H1 H2 Hf; [lia|].
  cbn [kvMergesort]. destruct (Nat.leb_spec right left) as [Hle|Hgt].
  - exists X, tn, ts. split; [reflexivity|]. split; [|auto]. split; [reflexivity|]. split; [|reflexivity].
    destruct X as [|x [|y X]]; [constructor|repeat constructor|simpl in Hr; lia].
  - rewrite Nat.mod_small by lia. set (mid := (left + right) / 2).
    assert (Hmid : left <= mid < right).
    { unfold mid. pose proof (Nat.div_mod (left + right) 2 ltac:(lia)). pose proof (Nat.mod_upper_bound (left + right) 2 ltac:(lia)). lia. }
    set (L := take (mid + 1 - left) X). set (R := drop (mid + 1 - left) X).
    assert (EX : X = L ++ R) by (unfold L, R; rewrite take_drop; reflexivity).
    assert (LL : length L = mid + 1 - left) by (unfold L; rewrite take_length; lia).
    assert (LR : length R = right - mid) by (unfold R; rewrite drop_length; lia).
    destruct (IH L left mid kpre ((fst <$> R) ++ kpost) vpre ((snd <$> R) ++ vpost) tn ts) as (L' & tn1 & ts1 & E1 & (P1 & S1 & B1) & T1 & U1); [lia..|].
    assert (LL' : length L' = length L) by (rewrite P1; reflexivity).
    destruct (IH R (mid + 1) right (kpre ++ (fst <$> L')) kpost (vpre ++ (snd <$> L')) vpost tn1 ts1) as (R' & tn2 & ts2 & E2 & (P2 & S2 & B2) & T2 & U2);
      [rewrite app_length, fmap_length; lia..|lia|lia|lia|lia|lia|lia|].
    assert (LR' : length R' = length R) by (rewrite P2; reflexivity).
    rewrite EX, !fmap_app, <- !app_assoc, E1, bind_Ok. rewrite <- !app_assoc in E2. rewrite E2, bind_Ok.
    assert (HnL : forall a x, L' !! a = Some x -> (kpre ++ (fst <$> L') ++ (fst <$> R') ++ kpost) !! (left + a) = Some (fst x) /\ (vpre ++ (snd <$> L') ++ (snd <$> R') ++ vpost) !! (left + a) = Some (snd x)).
    { intros a x Ha. pose proof (lookup_lt_Some _ _ _ Ha). rewrite (lookup_app_r kpre), (lookup_app_r vpre) by lia.
      rewrite !lookup_app_l by (rewrite fmap_length; lia). rewrite !list_lookup_fmap.
      replace (left + a - length kpre) with a by lia. replace (left + a - length vpre) with a by lia. rewrite Ha. auto. }
    assert (HnR : forall b x, R' !! b = Some x -> (kpre ++ (fst <$> L') ++ (fst <$> R') ++ kpost) !! (mid + 1 + b) = Some (fst x) /\ (vpre ++ (snd <$> L') ++ (snd <$> R') ++ vpost) !! (mid + 1 + b) = Some (snd x)).
    { intros b x Hb. pose proof (lookup_lt_Some _ _ _ Hb). rewrite (lookup_app_r kpre), (lookup_app_r vpre), (lookup_app_r (fst <$> L')), (lookup_app_r (snd <$> L')) by (rewrite ?fmap_length; lia). rewrite !lookup_app_l by (rewrite !fmap_length; lia).
      rewrite !list_lookup_fmap, !fmap_length. replace (mid + 1 + b - length kpre - length L') with b by lia. replace (mid + 1 + b - length vpre - length L') with b by lia. rewrite Hb. auto. }
    destruct (copyLeft_ok left mid (kpre ++ (fst <$> L') ++ (fst <$> R') ++ kpost) (vpre ++ (snd <$> L') ++ (snd <$> R') ++ vpost) tn2 ts2 L') as (tn3 & ts3 & E3 & T3 & U3 & V3); [lia|exact HnL|lia|lia|].
    rewrite E3, bind_Ok.
    destruct (copyRight_ok mid right (kpre ++ (fst <$> L') ++ (fst <$> R') ++ kpost) (vpre ++ (snd <$> L') ++ (snd <$> R') ++ vpost) tn3 ts3 R') as (tn4 & ts4 & j & E4 & T4 & U4 & V4 & K4); [lia|exact HnR|lia|lia|].
    rewrite E4, bind_Ok.
    destruct (merge_ok left mid right kpre kpost vpre vpost L' R' (L' ++ R') tn4 ts4) as (i & j' & E5); [lia..|exact S1|reflexivity| |exact V4|].
    { intros a x Ha. pose proof (lookup_lt_Some _ _ _ Ha). destruct (K4 (left + a) ltac:(lia)) as [-> ->]. apply V3, Ha. }
    rewrite !fmap_app, <- !app_assoc in E5. rewrite E5, bind_Ok. exists (lmerge L' R'), tn4, ts4. split; [reflexivity|]. split; [|lia].
    split; [rewrite lmerge_perm, P1, P2; reflexivity|]. split; [apply lmerge_sorted; assumption|].
    intros k. rewrite lmerge_stable, B1, B2, filter_app by assumption. reflexivity.
Qed.

Lemma kvSort_ok fuel key value : 1 <= length key -> length value = length key -> 2 * length key <= W + 2 -> length key <= fuel ->
  exists Y, kvSort dflt W fuel key value (length key) = Ok (fst <$> Y, snd <$> Y) /\ is_stable_sort (zip key value) Y.
Proof.
  intros H1 Hv HW Hf. unfold kvSort. set (X := zip key value).
  assert (LX : length X = length key) by (unfold X; rewrite zip_with_length; lia).
  assert (E : decW W (length key) = length key - 1) by (unfold decW; destruct (Nat.eqb_spec (length key) 0); lia).
  destruct (mergesort_ok fuel X 0 (length key - 1) [] [] [] [] (replicate (length key) 0) (replicate (length key) dflt)) as (Y & tn & ts & E1 & S1 & _ & _);
    [rewrite ?replicate_length; auto; lia..|].
  rewrite !app_nil_r, !app_nil_l in E1. unfold X in E1 at 1. rewrite fst_zip in E1 by lia. unfold X in E1. rewrite snd_zip in E1 by lia.
  rewrite E, E1. exists Y. split; [reflexivity|exact S1].
Qed.

(** Beyond half the range of the index type the midpoint wraps around and the recursion never ends. *)
Lemma mergesort_wrap fuel : forall (s s' : kv) left right, Nat.even W = true -> W + 2 <= 2 * right -> right < W -> left < right ->
  kvMergesort W fuel s left right <> Ok s'.
Proof.
  induction fuel as [|fuel IH]; intros s s' left right He H1 H2 Hl; [discriminate|]. cbn [kvMergesort].
  destruct (Nat.leb_spec right left); [lia|]. set (mid := ((left + right) mod W) / 2).
  assert (Hm : mid + 1 < right).
  { apply Nat.even_spec in He as [h Hh]. unfold mid. pose proof (Nat.div_mod ((left + right) mod W) 2 ltac:(lia)).
    pose proof (Nat.mod_upper_bound ((left + right) mod W) 2 ltac:(lia)).
    destruct (Nat.lt_ge_cases (left + right) W) as [Hw|Hw].
    - rewrite (Nat.mod_small (left + right) W) in * by lia. lia.
    - assert (E : (left + right) mod W = left + right - W).
      { replace (left + right) with ((left + right - W) + 1 * W) at 1 by lia. rewrite Nat.mod_add by lia. apply Nat.mod_small. lia. }
      rewrite E in *. lia. }
  destruct (kvMergesort W fuel s left mid) as [s1|f]; [|discriminate]. cbn [bind].
  destruct (kvMergesort W fuel s1 (mid + 1) right) as [s2|f] eqn:E; [|discriminate]. exfalso. apply (IH _ _ _ _ He H1 H2 Hm E).
Qed.

(** N = 0: the upper bound wraps around; the innermost call at the left end reads the first cell. *)
Lemma mergesort_empty fuel right : 1 <= right < W -> right <= fuel -> kvMergesort W (S fuel) ([] : list nat, [] : list V, [], []) 0 right = Err OutOfBounds.
Proof.
  revert right. induction fuel as [|fuel IH]; intros right Hr Hf; [lia|].
  change (kvMergesort W (S (S fuel)) ([], [], [], []) 0 right) with
    (if right <=? 0 then Ok ([] : list nat, [] : list V, [], []) else
      let mid := ((0 + right) mod W) / 2 in
      s <- kvMergesort W (S fuel) ([] : list nat, [] : list V, [], []) 0 mid ;;
      s <- kvMergesort W (S fuel) s (mid + 1) right ;;
      s <- kvCopyLeft 0 mid s ;; '(s, _) <- kvCopyRight W mid right s ;; '(s, _, _) <- kvMerge W 0 mid right s ;; Ok s).
  destruct (Nat.leb_spec right 0); [lia|]. rewrite Nat.add_0_l, Nat.mod_small by lia. cbv zeta.
  destruct (decide (right = 1)) as [->|Hne].
  - reflexivity.
  - assert (Hm : 1 <= right / 2 < right) by (split; [apply Nat.div_le_lower_bound; lia|apply Nat.div_lt; lia]).
    rewrite IH by lia. reflexivity.
Qed.
End KvSort.
