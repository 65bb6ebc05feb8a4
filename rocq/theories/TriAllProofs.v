(** preprocessInput: the renumbered lower triangle. *)
From stdpp Require Import numbers list_numbers.
From Verif Require Import BaseProofs Assemble MatSpec MatProofs ConvProofs MatStatements PropMat TriAllModel TriAllSpec.
From Verif Require Import Base Spec.

(** ** Adjacent duplicates *)
Section Uniq.
Context {V : Type} (lt : triple V -> triple V -> bool).
Hypothesis lt_trans : forall x y z, lt x y = true -> lt y z = true -> lt x z = true.
Hypothesis lt_total : forall x y, fst x <> fst y -> lt x y = true \/ lt y x = true.
Hypothesis lt_key : forall x y x' y', fst x = fst x' -> fst y = fst y' -> lt x y = lt x' y'.

Lemma key_neq (x y : triple V) : negb (t_row x =? t_row y) || negb (t_col x =? t_col y) = true <-> fst x <> fst y.
Proof.
  destruct x as [[r c] v], y as [[r' c'] v']. unfold t_row, t_col. simpl.
  destruct (Nat.eqb_spec r r'), (Nat.eqb_spec c c'); simpl; split; intros; congruence.
Qed.
Lemma ss_snoc {X} (R : X -> X -> Prop) (l : list X) x : StronglySorted R l -> Forall (fun y => R y x) l -> StronglySorted R (l ++ [x]).
Proof.
  induction 1 as [|y l Hl IH Hy]; intros Hf; [repeat constructor|]. inversion Hf; subst. simpl. constructor; [auto|]. apply Forall_app. auto.
Qed.
Lemma unique_ok (s tl : list (triple V)) : (forall i j x y, i < j -> s !! i = Some x -> s !! j = Some y -> lt y x = false) -> s <> [] ->
  exists u rest, uniqueTriples (s ++ tl) (length s) = Ok (u ++ rest, length u) /\ length (u ++ rest) = length (s ++ tl) /\
    StronglySorted (fun x y => lt x y = true) u /\ (forall x, x ∈ u -> x ∈ s) /\ (forall x : triple V, x ∈ s -> exists y : triple V, y ∈ u /\ fst y = fst x) /\
    drop (length s) (u ++ rest) = tl /\ 1 <= length u <= length s.
Proof.
  intros Hs Hne. assert (Hl : 1 <= length s) by (destruct s; simpl; [congruence|lia]).
  destruct (for_inv (fun src '(arr, dst) => 1 <= dst <= src /\ length arr = length (s ++ tl) /\ (forall k, src - 1 <= k -> arr !! k = (s ++ tl) !! k) /\
    StronglySorted (fun x y => lt x y = true) (take dst arr) /\ (forall x, x ∈ take dst arr -> x ∈ take src s) /\
    (forall x : triple V, x ∈ take src s -> exists y : triple V, y ∈ take dst arr /\ fst y = fst x) /\
    exists x y : triple V, arr !! (dst - 1) = Some x /\ s !! (src - 1) = Some y /\ fst x = fst y)
   (fun src '(arr, dst) =>
    x <- get arr src ;;
    y <- get arr (src - 1) ;;
    if negb (t_row x =? t_row y) || negb (t_col x =? t_col y) then
      arr' <- set_ arr dst x ;;
      Ok (arr', dst + 1)
    else Ok (arr, dst)) 1 (length s) (s ++ tl, 1)) as ([arr dst] & Hf & HI); [lia| | |].
  - destruct s as [|x s]; [congruence|]. simpl. rewrite !take_0. split; [lia|]. split; [reflexivity|]. split; [reflexivity|].
    split; [repeat constructor|]. split; [auto|]. split; [eauto|]. exists x, x. auto.
  - intros src [arr dst] Hsrc (Hd & Hlen & Hk & Hss & Hin & Hcov & x0 & y0 & Hx0 & Hy0 & He0).
    destruct (lookup_lt_is_Some_2 s src) as [x Hx]; [lia|].
    assert (Hxa : arr !! src = Some x) by (rewrite Hk by lia; rewrite lookup_app_l by lia; exact Hx).
    assert (Hya : arr !! (src - 1) = Some y0) by (rewrite Hk by lia; rewrite lookup_app_l by lia; exact Hy0).
    cbv beta iota. rewrite (get_Some _ _ _ Hxa), bind_Ok, (get_Some _ _ _ Hya), bind_Ok.
    replace (src + 1) with (S src) by lia. rewrite (take_S_r _ _ _ Hx).
    destruct (negb _ || negb _) eqn:Eb.
    + apply key_neq in Eb. rewrite app_length in Hlen. rewrite set_Ok by lia. rewrite bind_Ok. eexists. split; [reflexivity|]. cbv beta iota.
      assert (Et : take (dst + 1) (<[dst:=x]> arr) = take dst arr ++ [x]).
      { replace (dst + 1) with (S dst) by lia. rewrite (take_S_r _ _ x) by (apply list_lookup_insert; lia). rewrite take_insert by lia. reflexivity. }
      rewrite Et. split; [lia|]. split; [rewrite insert_length, app_length; exact Hlen|].
      split; [|split; [|split; [|split]]].
      * intros k Hk'. destruct (decide (k = dst)) as [->|Hne'].
        -- assert (dst = src) by lia. subst dst. rewrite list_lookup_insert by lia. rewrite lookup_app_l by lia. auto.
        -- rewrite list_lookup_insert_ne by congruence. apply Hk. lia.
      * apply ss_snoc; [exact Hss|]. apply Forall_forall. intros z Hz.
        assert (Hyx : lt y0 x = true).
        { destruct (lt_total y0 x) as [?|H]; [congruence|assumption|]. rewrite (Hs (src - 1) src y0 x) in H by (auto; lia). discriminate. }
        apply elem_of_list_lookup in Hz as [k Hz]. pose proof (lookup_lt_Some _ _ _ Hz) as Hkl. rewrite take_length in Hkl. rewrite lookup_take in Hz by lia.
        destruct (decide (k = dst - 1)) as [->|Hne'].
        -- assert (z = x0) by congruence. subst z. rewrite (lt_key x0 x y0 x); auto.
        -- apply lt_trans with x0; [|rewrite (lt_key x0 x y0 x); auto].
           revert Hss. assert (Hz' : take dst arr !! k = Some z) by (rewrite lookup_take by lia; exact Hz).
           assert (Hx' : take dst arr !! (dst - 1) = Some x0) by (rewrite lookup_take by lia; exact Hx0).
           assert (Hkl' : k < dst - 1) by lia. revert Hz' Hx' Hkl'. generalize (take dst arr) as l. generalize (dst - 1) as m. clear.
           intros m l Hz Hx Hkm Hss. revert k m Hz Hx Hkm. induction Hss as [|a l Hl IH Ha]; intros k m Hz Hx Hkm; [discriminate|].
           destruct k as [|k], m as [|m]; try lia; simpl in Hz, Hx.
           ++ injection Hz as ->. rewrite Forall_forall in Ha. apply Ha. eapply elem_of_list_lookup_2; eauto.
           ++ apply (IH k m); auto. lia.
      * intros z Hz. apply elem_of_app in Hz as [Hz|Hz]; apply elem_of_app; [left; auto|right; exact Hz].
      * intros z Hz. apply elem_of_app in Hz as [Hz|Hz].
        -- destruct (Hcov z Hz) as (y & Hy & E). exists y. split; [apply elem_of_app; auto|exact E].
        -- apply elem_of_list_singleton in Hz as ->. exists x. split; [apply elem_of_app; right; left|reflexivity].
      * exists x, x. replace (dst + 1 - 1) with dst by lia. replace (S src - 1) with src by lia. split; [apply list_lookup_insert; lia|]. auto.
    + assert (Ek : fst x = fst y0).
      { destruct (decide (fst x = fst y0)) as [?|Hn]; [assumption|]. apply key_neq in Hn. congruence. }
      eexists. split; [reflexivity|]. cbv beta iota. split; [lia|]. split; [exact Hlen|]. split; [intros k Hk'; apply Hk; lia|]. split; [exact Hss|].
      split; [intros z Hz; apply elem_of_app; auto|]. split.
      * intros z Hz. apply elem_of_app in Hz as [Hz|Hz]; [auto|]. apply elem_of_list_singleton in Hz as ->.
        destruct (Hcov y0) as (y & Hy & E); [|exists y; split; [exact Hy|congruence]].
        apply elem_of_list_lookup. exists (src - 1). rewrite lookup_take by lia. exact Hy0.
      * exists x0, x. replace (S src - 1) with src by lia. split; [exact Hx0|]. split; [exact Hx|congruence].
  - destruct HI as (Hd & Hlen & Hk & Hss & Hin & Hcov & _). rewrite (take_ge s) in Hin, Hcov by lia.
    exists (take dst arr), (drop dst arr). rewrite take_drop. assert (Hdl : length (take dst arr) = dst) by (rewrite take_length, Hlen, app_length, Nat.min_l by lia; reflexivity).
    split; [|split; [exact Hlen|split; [exact Hss|split; [exact Hin|split; [exact Hcov|split; [|lia]]]]]].
    + unfold uniqueTriples. rewrite Hf, Hdl. reflexivity.
    + transitivity (drop (length s) (s ++ tl)); [|apply drop_app]. apply list_eq. intros k. rewrite !lookup_drop. apply Hk. lia.
Qed.
End Uniq.

Lemma sw_tripleGt {V} : strict_weak (tripleGt (V := V)).
Proof.
  unfold tripleGt. constructor.
  - intros x. rewrite !Nat.ltb_irrefl, andb_false_r. reflexivity.
  - intros x y z. repeat destruct (Nat.ltb_spec _ _); repeat destruct (Nat.eqb_spec _ _); simpl; intros; try discriminate; try lia; auto.
  - intros x y z. repeat destruct (Nat.ltb_spec _ _); repeat destruct (Nat.eqb_spec _ _); simpl; intros; try discriminate; try lia; auto.
Qed.
Lemma sw_tripleLt {V} : strict_weak (tripleLt (V := V)).
Proof.
  unfold tripleLt. constructor.
  - intros x. rewrite !Nat.ltb_irrefl, andb_false_r. reflexivity.
  - intros x y z. repeat destruct (Nat.ltb_spec _ _); repeat destruct (Nat.eqb_spec _ _); simpl; intros; try discriminate; try lia; auto.
  - intros x y z. repeat destruct (Nat.ltb_spec _ _); repeat destruct (Nat.eqb_spec _ _); simpl; intros; try discriminate; try lia; auto.
Qed.
Lemma sw_pairGt : strict_weak pairGt.
Proof.
  unfold pairGt. constructor.
  - intros x. rewrite !Nat.ltb_irrefl, andb_false_r. reflexivity.
  - intros x y z. repeat destruct (Nat.ltb_spec _ _); repeat destruct (Nat.eqb_spec _ _); simpl; intros; try discriminate; try lia; auto.
  - intros x y z. repeat destruct (Nat.ltb_spec _ _); repeat destruct (Nat.eqb_spec _ _); simpl; intros; try discriminate; try lia; auto.
Qed.
Lemma gt_total {V} (x y : triple V) : fst x <> fst y -> tripleGt x y = true \/ tripleGt y x = true.
Proof.
  destruct x as [[r c] v], y as [[r' c'] v']. unfold tripleGt, t_row, t_col. simpl. intros H. rewrite !orb_true_iff, !andb_true_iff, !Nat.ltb_lt, !Nat.eqb_eq.
  destruct (decide (r = r')) as [->|]; [|lia]. assert (c <> c') by congruence. lia.
Qed.
Lemma lt_total {V} (x y : triple V) : fst x <> fst y -> tripleLt x y = true \/ tripleLt y x = true.
Proof.
  destruct x as [[r c] v], y as [[r' c'] v']. unfold tripleLt, t_row, t_col. simpl. intros H. rewrite !orb_true_iff, !andb_true_iff, !Nat.ltb_lt, !Nat.eqb_eq.
  destruct (decide (r = r')) as [->|]; [|lia]. assert (c <> c') by congruence. lia.
Qed.
Lemma gt_key {V} (x y x' y' : triple V) : fst x = fst x' -> fst y = fst y' -> tripleGt x y = tripleGt x' y'.
Proof. intros E1 E2. unfold tripleGt, t_row, t_col. rewrite E1, E2. reflexivity. Qed.
Lemma lt_key {V} (x y x' y' : triple V) : fst x = fst x' -> fst y = fst y' -> tripleLt x y = tripleLt x' y'.
Proof. intros E1 E2. unfold tripleLt, t_row, t_col. rewrite E1, E2. reflexivity. Qed.

(** ** The row counts *)
Section Pre.
Context {V : Type} (zero one : V).
Lemma rowCounts_ok (A : csc V) : wf_csc A -> rowCounts A = Ok ((fun i => (row_degree A i, i)) <$> seq 0 (c_rows A)).
Proof.
  intros Hw. assert (Hlen : length (rowids A) = c_nnz A) by apply (wf_colids _ Hw). unfold rowCounts.
  destruct (for_inv (fun i rc => rc = ((fun k => (0, if k <? i then k else 0)) <$> seq 0 (c_rows A)))
    (fun i rc => x <- get rc i ;; set_ rc i (fst x, i)) 0 (c_rows A) (replicate (c_rows A) (0, 0))) as (rc & Hf & HI).
  - lia.
  - apply list_eq. intros k. rewrite list_lookup_fmap. destruct (decide (k < c_rows A)) as [Hk|Hk].
    + rewrite lookup_replicate_2 by lia. rewrite lookup_seq_lt by lia. simpl. destruct (Nat.ltb_spec (0 + k) 0); [lia|reflexivity].
    + rewrite !lookup_ge_None_2; [reflexivity|rewrite seq_length; lia|rewrite replicate_length; lia].
  - intros i rc Hi ->. erewrite get_Some by (rewrite list_lookup_fmap, lookup_seq_lt by lia; reflexivity). rewrite bind_Ok.
    rewrite set_Ok by (rewrite fmap_length, seq_length; lia). eexists. split; [reflexivity|]. apply list_eq. intros k.
    destruct (decide (k = i)) as [->|Hne].
    + rewrite list_lookup_insert by (rewrite fmap_length, seq_length; lia). rewrite list_lookup_fmap, lookup_seq_lt by lia. simpl.
      destruct (Nat.ltb_spec i (i + 1)); [reflexivity|lia].
    + rewrite list_lookup_insert_ne by congruence. rewrite !list_lookup_fmap. destruct (decide (k < c_rows A)) as [Hk|Hk].
      * rewrite lookup_seq_lt by lia. simpl. destruct (Nat.ltb_spec k i), (Nat.ltb_spec k (i + 1)); try lia; reflexivity.
      * rewrite lookup_ge_None_2 by (rewrite seq_length; lia). reflexivity.
  - rewrite Hf, bind_Ok. clear Hf.
    assert (Hrc : rc = (fun i => (0, i)) <$> seq 0 (c_rows A)).
    { rewrite HI. apply list_fmap_ext. intros k i Hk. apply lookup_seq in Hk as [-> Hk]. simpl. destruct (Nat.ltb_spec k (c_rows A)); [reflexivity|lia]. }
    destruct (for_inv (fun p rc => rc = ((fun i => (length (filter (fun r => r = i) (take p (rowids A))), i)) <$> seq 0 (c_rows A)))
      (fun i rc => r <- get (rowids A) i ;; x <- get rc r ;; set_ rc r (fst x + 1, snd x)) 0 (c_nnz A) rc) as (rc' & Hf & HI').
    + lia.
    + exact Hrc.
    + intros p rc1 Hp ->. destruct (lookup_lt_is_Some_2 (rowids A) p) as [r Hr]; [lia|]. pose proof (wf_range _ Hw p r Hr) as Hrn. simpl in Hrn.
      rewrite (get_Some _ _ _ Hr), bind_Ok. erewrite get_Some by (rewrite list_lookup_fmap, lookup_seq_lt by lia; reflexivity). rewrite bind_Ok.
      rewrite set_Ok by (rewrite fmap_length, seq_length; lia). eexists. split; [reflexivity|]. replace (p + 1) with (S p) by lia.
      rewrite (take_S_r _ _ _ Hr). apply list_eq. intros k. destruct (decide (k = r)) as [->|Hne].
      * rewrite list_lookup_insert by (rewrite fmap_length, seq_length; lia). rewrite list_lookup_fmap, lookup_seq_lt by lia. cbn [fmap option_fmap option_map fst snd Nat.add].
        rewrite filter_app, app_length, filter_cons_True by reflexivity. rewrite filter_nil. reflexivity.
      * rewrite list_lookup_insert_ne by congruence. rewrite !list_lookup_fmap. destruct (decide (k < c_rows A)) as [Hk|Hk].
        -- rewrite lookup_seq_lt by lia. cbn [fmap option_fmap option_map Nat.add]. rewrite filter_app, app_length, filter_cons_False by congruence.
           rewrite filter_nil. simpl. do 2 f_equal. lia.
        -- rewrite lookup_ge_None_2 by (rewrite seq_length; lia). reflexivity.
    + rewrite Hf, HI'. rewrite take_ge by lia. reflexivity.
Qed.

(** ** The triples *)
Definition pitem (p : nat -> nat) (x : nat * (nat * V)) : option (triple V) :=
  let row := p (fst x) in let col := p (fst (snd x)) in
  if col <? row then Some (row, col, one) else if row <? col then Some (col, row, one) else None.
Lemma makeTriples_ok (A : csc V) (p : nat -> nat) cnt : wf_csc A -> c_cols A <= c_rows A ->
  let rc := (fun i => (cnt i, p i)) <$> seq 0 (c_rows A) in
  let l := omap (pitem p) (csc_items A) in
  makeTriples zero one rc A = Ok (l ++ replicate (c_nnz A - length l) (triple0 zero), length l) /\ length l <= c_nnz A.
Proof.
  intros Hw Hsq rc l.
  assert (Hrc : forall i, i < c_rows A -> rc !! i = Some (cnt i, p i)).
  { intros i Hi. unfold rc. rewrite list_lookup_fmap, lookup_seq_lt by lia. reflexivity. }
  set (step := fun (s : list (triple V) * nat) (x : nat * (nat * V)) =>
     match pitem p x with Some t => arr' <- set_ (fst s) (snd s) t ;; Ok (arr', snd s + 1) | None => Ok s end).
  assert (E : makeTriples zero one rc A = foldM step (csc_items A) (replicate (c_nnz A) (triple0 zero), 0)).
  { unfold makeTriples. generalize (replicate (c_nnz A) (triple0 zero), 0). intros s0.
    assert (G : foldM step (csc_items A) s0 =
      foldM (fun s j => foldM step ((fun e => (fst e, (j, snd e))) <$> col_entries A j) s) (seq 0 (c_cols A)) s0)
      by (unfold csc_items; rewrite foldM_mjoin, foldM_fmap; reflexivity).
    rewrite G. rewrite (for_foldM (seq 0 (c_cols A)) _ (fun s j => foldM step ((fun e => (fst e, (j, snd e))) <$> col_entries A j) s)).
    - rewrite Nat.sub_0_r, drop_0, take_ge by (rewrite seq_length; lia). reflexivity.
    - rewrite seq_length. lia.
    - lia.
    - intros j j' s Hj Hj'. apply lookup_seq in Hj' as [-> _]. simpl.
      destruct (row_bounds_wf (csc_tr A) j Hw) as (b & e & Hb & He & Hbe & Hen & _); [simpl; lia|].
      simpl in Hb, He, Hen. rewrite (get_Some _ _ _ Hb), bind_Ok, (get_Some _ _ _ He), bind_Ok.
      rewrite foldM_fmap. unfold col_entries. rewrite (row_entries_eq (csc_tr A) j b e Hb He).
      apply for_foldM; [rewrite zip_length by exact Hw; simpl; lia|lia|].
      intros k [r v] [arr idx] _ Hk. apply zip_lookup in Hk as [Hr Hv]; [|exact Hw]. simpl in Hr, Hv.
      pose proof (wf_range _ Hw k r Hr) as Hrn. simpl in Hrn.
      unfold putTriple, step, pitem. cbn [fst snd]. rewrite (get_Some _ _ _ (Hrc j ltac:(lia))), bind_Ok, (get_Some _ _ _ Hr), bind_Ok, (get_Some _ _ _ (Hrc r Hrn)), bind_Ok. cbn [fst snd].
      destruct (p j <? p r); [reflexivity|]. destruct (p r <? p j); reflexivity. }
  rewrite E. pose proof (csc_items_length A Hw) as Hl.
  destruct (foldM_inv (fun done s => s = (omap (pitem p) done ++ replicate (c_nnz A - length (omap (pitem p) done)) (triple0 zero), length (omap (pitem p) done)) /\
      length (omap (pitem p) done) <= length done) step (csc_items A) (replicate (c_nnz A) (triple0 zero), 0)) as (s' & -> & -> & Hle).
  - simpl. rewrite Nat.sub_0_r. auto.
  - intros done x rest s Hx [-> Hle]. unfold step. cbn [fst snd].
    assert (Hd : length done < c_nnz A) by (rewrite <- Hl, Hx, app_length; simpl; lia).
    assert (Eo : omap (pitem p) (done ++ [x]) = omap (pitem p) done ++ match pitem p x with Some t => [t] | None => [] end).
    { rewrite omap_app. simpl. destruct (pitem p x); reflexivity. }
    rewrite Eo. clear Eo Hx. set (d := omap (pitem p) done) in *. destruct (pitem p x) as [t|].
    + rewrite set_Ok by (rewrite app_length, replicate_length; lia). rewrite bind_Ok. eexists. split; [reflexivity|].
      rewrite !app_length. simpl. split; [|lia]. f_equal.
      destruct (c_nnz A - length d) as [|m] eqn:Em; [lia|]. replace (c_nnz A - (length d + 1)) with m by lia.
      rewrite insert_app_r_alt by lia. rewrite Nat.sub_diag. simpl. rewrite <- app_assoc. reflexivity.
    + rewrite app_nil_r. eexists. split; [reflexivity|]. split; [reflexivity|]. rewrite app_length. simpl. lia.
  - fold l in Hle. split; [reflexivity|]. rewrite Hl in Hle. exact Hle.
Qed.

(** ** The new matrix *)
Lemma for_n_ext' {S} (f g : nat -> S -> res S) n i s : (forall k s, i <= k < i + n -> f k s = g k s) -> for_n n i f s = for_n n i g s.
Proof.
  revert i s. induction n as [|n IH]; intros i s H; [reflexivity|]. simpl. rewrite (H i s) by lia. destruct (g i s); simpl; [|reflexivity].
  apply IH. intros k s' Hk. apply H. lia.
Qed.
Lemma bucket_prefix (u rest : list (nat * nat * V)) n : bucketItems zero (u ++ rest) (length u) n = bucketItems zero u (length u) n.
Proof.
  assert (G : forall k, k < length u -> get (u ++ rest) k = get u k).
  { intros k Hk. destruct (lookup_lt_is_Some_2 u k Hk) as [x Hx]. rewrite (get_Some u k x Hx). apply get_Some. rewrite lookup_app_l by exact Hk. exact Hx. }
  unfold bucketItems, for_. erewrite (for_n_ext' (fun k w => '(_, c, _) <- get (u ++ rest) k ;; bump w c)).
  2:{ intros k s Hk. rewrite G by lia. reflexivity. }
  destruct (for_n _ _ _ (replicate n 0)) as [w|]; [|reflexivity]. cbn [bind]. destruct (pointers w n) as [[w' cp]|]; [|reflexivity]. cbn [bind].
  erewrite (for_n_ext' (fun k s => '(r, c, v) <- get (u ++ rest) k ;; place1 s c (r, v))).
  2:{ intros k s Hk. rewrite G by lia. reflexivity. }
  reflexivity.
Qed.
Lemma cscOfItems_prefix stdsort (u rest : list (nat * nat * V)) m n X :
  cscOfItems_ends zero stdsort (u ++ rest) (length u) m n X <-> cscOfItems_ends zero stdsort u (length u) m n X.
Proof. unfold cscOfItems_ends. rewrite bucket_prefix. reflexivity. Qed.

Context (sortP : (nat * nat -> nat * nat -> bool) -> list (nat * nat) -> list (nat * nat)).
Context (sortT : (triple V -> triple V -> bool) -> list (triple V) -> list (triple V)).
Hypothesis HsP : std_sort sortP.
Hypothesis HsT : std_sort sortT.

(** The renumbering. *)
Definition renum (A : csc V) (i : nat) : nat := snd (default (0, 0) (sortP pairGt ((fun i => (row_degree A i, i)) <$> seq 0 (c_rows A)) !! i)).
Lemma renum_ok (A : csc V) :
  permutes (c_rows A) (renum A) /\
  (forall i j, i < j -> j < c_rows A -> row_degree A (renum A j) < row_degree A (renum A i) \/
     (row_degree A (renum A j) = row_degree A (renum A i) /\ renum A j < renum A i)) /\
  sortP pairGt ((fun i => (row_degree A i, i)) <$> seq 0 (c_rows A)) = (fun i => (row_degree A (renum A i), renum A i)) <$> seq 0 (c_rows A).
Proof.
  set (l := (fun i => (row_degree A i, i)) <$> seq 0 (c_rows A)). destruct (HsP pairGt sw_pairGt l) as [Hp Ho].
  set (s := sortP pairGt l) in *. assert (Hl : length s = c_rows A) by (rewrite Hp; unfold l; rewrite fmap_length, seq_length; reflexivity).
  assert (Hs : forall i, i < c_rows A -> s !! i = Some (row_degree A (renum A i), renum A i) /\ renum A i < c_rows A).
  { intros i Hi. destruct (lookup_lt_is_Some_2 s i) as [[d k] Hx]; [lia|]. assert (Hin : (d, k) ∈ l) by (rewrite <- Hp; eapply elem_of_list_lookup_2; exact Hx).
    unfold l in Hin. apply elem_of_list_fmap in Hin as (k' & [= -> ->] & Hk). apply elem_of_seq in Hk.
    assert (E : renum A i = k') by (unfold renum; fold l; fold s; rewrite Hx; reflexivity). rewrite E. split; [exact Hx|lia]. }
  assert (Hnd : NoDup (snd <$> s)).
  { rewrite Hp. unfold l. rewrite <- list_fmap_compose. change (snd ∘ (λ i : nat, (row_degree A i, i))) with (fun i : nat => i). rewrite list_fmap_id. apply NoDup_seq. }
  split; [split|split].
  - intros i Hi. apply Hs, Hi.
  - intros i j Hi Hj E. destruct (Hs i Hi) as [H1 _], (Hs j Hj) as [H2 _]. apply (NoDup_lookup (snd <$> s) i j (renum A i) Hnd); rewrite list_lookup_fmap; [rewrite H1|rewrite H2]; simpl; congruence.
  - intros i j Hij Hj. destruct (Hs i ltac:(lia)) as [H1 _], (Hs j Hj) as [H2 _]. pose proof (Ho i j _ _ Hij H1 H2) as Hlt.
    assert (Hne : renum A i <> renum A j).
    { intros E. assert (i = j); [|lia]. apply (NoDup_lookup (snd <$> s) i j (renum A i) Hnd); rewrite list_lookup_fmap; [rewrite H1|rewrite H2]; simpl; congruence. }
    unfold pairGt in Hlt. simpl in Hlt. revert Hlt.
    destruct (Nat.ltb_spec (row_degree A (renum A i)) (row_degree A (renum A j))); [discriminate|].
    destruct (Nat.eqb_spec (row_degree A (renum A i)) (row_degree A (renum A j))); simpl; [|lia].
    destruct (Nat.ltb_spec (renum A i) (renum A j)); [discriminate|]. lia.
  - apply list_eq. intros i. rewrite list_lookup_fmap. destruct (decide (i < c_rows A)) as [Hi|Hi].
    + destruct (Hs i Hi) as [-> _]. rewrite lookup_seq_lt by lia. reflexivity.
    + rewrite !lookup_ge_None_2; [reflexivity|rewrite seq_length; lia|lia].
Qed.

Lemma items_elem (A : csc V) r j v : wf_csc A -> (r, (j, v)) ∈ csc_items A <-> j < c_cols A /\ (r, v) ∈ col_entries A j.
Proof.
  intros Hw. unfold csc_items. rewrite elem_of_list_join. split.
  - intros (l & Hl & Hin). apply elem_of_list_fmap in Hin as (k & -> & Hk). apply elem_of_seq in Hk.
    apply elem_of_list_fmap in Hl as ([r' v'] & [= -> -> ->] & Hl). split; [lia|exact Hl].
  - intros [Hj Hin]. eexists. split; [|apply elem_of_list_fmap; exists j; split; [reflexivity|apply elem_of_seq; lia]].
    apply elem_of_list_fmap. exists (r, v). auto.
Qed.
Lemma col_range (A : csc V) r j v : wf_csc A -> (r, v) ∈ col_entries A j -> r < c_rows A /\ j < c_cols A.
Proof.
  intros Hw Hin. split; [exact (row_entries_range (csc_tr A) j r v Hw Hin)|].
  destruct (decide (j < c_cols A)) as [?|Hj]; [assumption|]. exfalso. unfold col_entries, row_entries in Hin. simpl in Hin.
  rewrite (lookup_ge_None_2 (colptr A) (j + 1)) in Hin by (pose proof (wf_len _ Hw) as E; simpl in E; rewrite E; lia).
  destruct (colptr A !! j); simpl in Hin; rewrite ?take_0 in Hin; inversion Hin.
Qed.
Lemma joined_range (A : csc V) n i j : wf_csc A -> c_rows A = n -> c_cols A = n -> joined A i j -> i < n /\ j < n.
Proof.
  intros Hw Hr Hc [_ [H|H]]; apply elem_of_list_fmap in H as ([r v] & -> & H); apply (col_range A _ _ _ Hw) in H; simpl; lia.
Qed.

(** The triples of the graph. *)
Lemma pitems (A : csc V) n p t : wf_csc A -> c_rows A = n -> c_cols A = n -> permutes n p ->
  t ∈ omap (pitem p) (csc_items A) <-> exists a b, joined A a b /\ p b < p a /\ t = (p a, p b, one).
Proof.
  intros Hw Hr Hc [Hp1 Hp2]. rewrite elem_of_list_omap. split.
  - intros ([r [j v]] & Hin & E). apply (items_elem A r j v Hw) in Hin as [Hj Hin]. pose proof (col_range A r j v Hw Hin) as [Hrr _].
    assert (Hin' : r ∈ fst <$> col_entries A j) by (apply elem_of_list_fmap; exists (r, v); auto).
    unfold pitem in E. simpl in E. destruct (Nat.ltb_spec (p j) (p r)); [|destruct (Nat.ltb_spec (p r) (p j)); [|discriminate]]; injection E as <-.
    + exists r, j. split; [split; [intros ->; lia|auto]|auto].
    + exists j, r. split; [split; [intros ->; lia|auto]|auto].
  - intros (a & b & [Hne Hj] & Hlt & ->). destruct Hj as [H|H]; apply elem_of_list_fmap in H as ([r v] & -> & H); pose proof (col_range A _ _ _ Hw H) as [? ?]; simpl in *.
    + exists (r, (b, v)). split; [apply items_elem; auto|]. unfold pitem. simpl. destruct (Nat.ltb_spec (p b) (p r)); [reflexivity|lia].
    + exists (r, (a, v)). split; [apply items_elem; auto|]. unfold pitem. simpl. destruct (Nat.ltb_spec (p a) (p r)); [lia|]. destruct (Nat.ltb_spec (p r) (p a)); [reflexivity|lia].
Qed.

Lemma preTriples_ok (A : csc V) n : wf_csc A -> c_rows A = n -> c_cols A = n ->
  exists arr idx, preTriples zero one sortP sortT A = Ok (arr, idx) /\
  let l := omap (pitem (renum A)) (csc_items A) in
  (l = [] -> arr = replicate (c_nnz A) (triple0 zero) /\ idx = 1) /\
  (l <> [] -> exists u rest, arr = u ++ rest /\ idx = length u /\ StronglySorted (fun x y => tripleGt x y = true) u /\ forall t, t ∈ u <-> t ∈ l).
Proof.
  intros Hw Hr Hc. destruct (renum_ok A) as (Hp & _ & Es). unfold preTriples. rewrite (rowCounts_ok A Hw), bind_Ok, Es.
  destruct (makeTriples_ok A (renum A) (fun i => row_degree A (renum A i)) Hw ltac:(lia)) as [-> Hle]. rewrite bind_Ok. cbv beta iota.
  set (l := omap (pitem (renum A)) (csc_items A)) in *. unfold sortFirst.
  destruct (Nat.ltb_spec (length (l ++ replicate (c_nnz A - length l) (triple0 zero))) (length l)) as [H|_]; [rewrite app_length in H; lia|].
  rewrite bind_Ok. rewrite take_app, drop_app.
  destruct (HsT tripleGt sw_tripleGt l) as [Hperm Hord]. destruct (decide (l = [])) as [E|Hne].
  - rewrite E in *. symmetry in Hperm. apply Permutation_nil in Hperm. rewrite Hperm. simpl. rewrite Nat.sub_0_r. eexists _, _. split; [reflexivity|]. split; [auto|congruence].
  - destruct (unique_ok (tripleGt (V := V))) with (s := sortT tripleGt l) (tl := replicate (c_nnz A - length l) (triple0 zero)) as (u & rest & Hu & _ & Hss & Hin & Hcov & _).
    + apply sw_tripleGt.
    + apply gt_total.
    + apply gt_key.
    + exact Hord.
    + intros E. apply Hne. rewrite E in Hperm. apply Permutation_nil in Hperm. exact Hperm.
    + rewrite (Permutation_length Hperm) in Hu. rewrite Hu. eexists _, _. split; [reflexivity|]. split; [congruence|]. intros _. exists u, rest.
      split; [reflexivity|]. split; [reflexivity|]. split; [exact Hss|]. intros t. split.
      * intros Ht. rewrite <- Hperm. apply Hin, Ht.
      * intros Ht. destruct (Hcov t) as (y & Hy & E); [rewrite Hperm; exact Ht|].
        assert (Hval : forall t, t ∈ l -> snd t = one).
        { intros t' Ht'. apply (pitems A n (renum A)) in Ht' as (a & b & _ & _ & ->); auto. rewrite <- Hr. exact Hp. }
        assert (y = t); [|subst; exact Hy]. destruct y as [ky vy], t as [kt vt]. simpl in E. subst kt.
        rewrite (Hval _ Ht : vt = one). rewrite (Hval (ky, vy) ltac:(rewrite <- Hperm; apply Hin, Hy) : vy = one). reflexivity.
Qed.

Context (ltV : V -> V -> Prop) (stdsort : list (nat * V) -> list (nat * V)).
Hypothesis Hsort : sort_contract ltV stdsort.

Lemma triples_elem (X : csc V) i j v : wf_csc X -> (i, j, v) ∈ triples_csc X <-> (i, v) ∈ col_entries X j.
Proof.
  intros Hw. unfold triples_csc. rewrite elem_of_list_join. split.
  - intros (l & Hl & Hin). apply elem_of_list_fmap in Hin as (k & -> & Hk). apply elem_of_list_fmap in Hl as ([r' v'] & [= -> -> ->] & Hl). exact Hl.
  - intros Hin. pose proof (col_range X i j v Hw Hin) as [_ Hj].
    eexists. split; [|apply elem_of_list_fmap; exists j; split; [reflexivity|apply elem_of_seq; lia]]. apply elem_of_list_fmap. exists (i, v). auto.
Qed.
Lemma strict_of_le (l : list nat) : StronglySorted le l -> NoDup l -> StronglySorted lt l.
Proof.
  induction 1 as [|x l Hl IH Hx]; intros Hn; [constructor|]. apply NoDup_cons in Hn as [Hni Hn]. constructor; [auto|].
  rewrite Forall_forall in *. intros y Hy. specialize (Hx y Hy). assert (x <> y) by (intros ->; contradiction). lia.
Qed.
Lemma cols_nodup (X : csc V) : NoDup (fst <$> triples_csc X) -> forall j, j < c_cols X -> NoDup (fst <$> col_entries X j).
Proof.
  intros Hnd j Hj. unfold triples_csc in Hnd.
  assert (E : exists l1 l2, seq 0 (c_cols X) = l1 ++ j :: l2) by (apply elem_of_list_split, elem_of_seq; lia). destruct E as (l1 & l2 & E).
  rewrite E, fmap_app, fmap_cons, ConcProofs.mjoin_app, mjoin_cons, !fmap_app in Hnd. apply NoDup_app in Hnd as (_ & _ & Hnd). apply NoDup_app in Hnd as (Hnd & _ & _).
  rewrite <- list_fmap_compose in Hnd. apply (NoDup_fmap_1 (fun i => (i, j))). rewrite <- list_fmap_compose. exact Hnd.
Qed.

Lemma pre_ok (A : csc V) n : wf_csc A -> c_rows A = n -> c_cols A = n -> (exists i j, joined A i j) ->
  exists L, preprocessInput_ends zero one sortP sortT stdsort A L /\ (forall L', preprocessInput_ends zero one sortP sortT stdsort A L' -> L' = L) /\
    wf_csc L /\ c_rows L = n /\ c_cols L = n /\ sorted_cols L /\
    forall i j v, (i, v) ∈ col_entries L j <-> v = one /\ exists a b, joined A a b /\ j < i /\ i = renum A a /\ j = renum A b.
Proof.
  intros Hw Hr Hc (i0 & j0 & Hj0). destruct (renum_ok A) as (Hp & _ & _). rewrite Hr in Hp.
  pose proof (fun t => pitems A n (renum A) t Hw Hr Hc Hp) as Hl.
  destruct (preTriples_ok A n Hw Hr Hc) as (arr & idx & Ep & _ & Hu). set (l := omap (pitem (renum A)) (csc_items A)) in *.
  destruct Hu as (u & rest & -> & -> & Hss & Hu).
  { intros E. assert (Hsym : joined A j0 i0) by (destruct Hj0 as [? ?]; split; [congruence|tauto]).
    destruct (joined_range A n i0 j0 Hw Hr Hc Hj0) as [Hi Hj]. destruct Hp as [Hp1 Hp2].
    assert (renum A i0 <> renum A j0) by (intros E'; apply (proj1 Hj0), Hp2; auto).
    destruct (decide (renum A j0 < renum A i0)) as [Hlt|Hge].
    - assert (H1 : (renum A i0, renum A j0, one) ∈ l) by (apply Hl; eauto 10). rewrite E in H1. inversion H1.
    - assert (H1 : (renum A j0, renum A i0, one) ∈ l) by (apply Hl; exists j0, i0; split; [exact Hsym|]; split; [lia|reflexivity]). rewrite E in H1. inversion H1. }
  assert (Hall : Forall (fun x => fst (fst x) < n /\ snd (fst x) < n) u).
  { apply Forall_forall. intros t Ht. apply Hu, Hl in Ht as (a & b & Hj & _ & ->). destruct (joined_range A n a b Hw Hr Hc Hj). destruct Hp as [Hp1 _]. simpl. auto. }
  destruct (C42_from_triples V ltV zero stdsort Hsort u n n Hall) as (L & H1 & H2 & H3 & H4 & H5 & H6 & H7 & _).
  exists L. assert (Hnd : NoDup (fst <$> triples_csc L)).
  { rewrite H6. clear -Hss. induction Hss as [|x u Hs IH Hx]; [constructor|]. rewrite fmap_cons. constructor; [|exact IH].
    intros Hin. apply elem_of_list_fmap in Hin as (y & E & Hy). rewrite Forall_forall in Hx. specialize (Hx y Hy).
    rewrite (gt_key x y x x) in Hx by auto. rewrite (sw_irrefl _ sw_tripleGt) in Hx. discriminate. }
  split; [|split; [|split; [exact H3|split; [exact H4|split; [exact H5|split]]]]].
  - exists (u ++ rest), (length u). split; [exact Ep|]. rewrite Hr, Hc. apply cscOfItems_prefix, H1.
  - intros L' (arr' & idx' & Ep' & HL'). rewrite Ep in Ep'. injection Ep' as <- <-. apply H2. rewrite Hr, Hc in HL'. apply cscOfItems_prefix in HL'. exact HL'.
  - intros j Hj. apply strict_of_le; [apply H7; lia|apply cols_nodup; [exact Hnd|exact Hj]].
  - intros i j v. rewrite <- (triples_elem L i j v H3), H6, Hu, Hl. split.
    + intros (a & b & Hj & Hlt & [= -> -> ->]). eauto 10.
    + intros (-> & a & b & Hj & Hlt & -> & ->). eauto 10.
Qed.
End Pre.
