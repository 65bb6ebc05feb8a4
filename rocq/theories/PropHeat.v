(** C55: util/triple-util.h and the inputs of HeatMap.cpp. *)
From Coq Require Import NArith ZArith.
From stdpp Require Import numbers list_numbers sorting.
From Verif Require Import BaseProofs ConcProofs McaProofs DriverStatements Assemble TriProofs MatSpec ConvProofs MatStatements PropMat TriAllModel TriAllSpec TriAllProofs PropTriAll HeatModel.
From Verif Require Import Base Spec.
Local Open Scope nat_scope.

(** Triples in strictly ascending order of row, then column. *)
Definition ascending {V} (l : list (nat * nat * V)) : Prop :=
  StronglySorted (fun x y => fst (fst x) < fst (fst y) \/ (fst (fst x) = fst (fst y) /\ snd (fst x) < snd (fst y))) l.

Lemma ascending_lt {V} (l : list (triple V)) : StronglySorted (fun x y => tripleLt x y = true) l -> ascending l.
Proof.
  intros H. induction H as [|x l Hl IH Hx]; constructor; [exact IH|]. eapply Forall_impl; [exact Hx|]. intros y Hy. cbn beta in Hy. unfold tripleLt, t_row, t_col in Hy.
  apply orb_true_iff in Hy as [Hy|Hy]; [left; apply Nat.ltb_lt; exact Hy|]. apply andb_true_iff in Hy as [H1 H2]. right. split; [apply Nat.eqb_eq; exact H1|apply Nat.ltb_lt; exact H2].
Qed.
Lemma ascending_nodup {V} (l : list (nat * nat * V)) : ascending l -> NoDup (fst <$> l).
Proof.
  induction 1 as [|x l Hl IH Hx]; [constructor|]. rewrite fmap_cons. constructor; [|exact IH]. intros Hin. apply elem_of_list_fmap in Hin as (y & E & Hy).
  rewrite Forall_forall in Hx. specialize (Hx y Hy). rewrite E in Hx. lia.
Qed.

(** C55.  For at least one value, removeDuplicates returns the number k of different positions among the first n
    triples; the first k cells then hold, in strictly ascending order, one of the given triples for each
    position, and the cells from n on are untouched. *)
Theorem C55_remove_duplicates_partial :
  forall V sortT, std_sort sortT -> forall n (arr : list (triple V)), 1 <= n -> n <= length arr ->
  exists arr' k, removeDuplicates sortT n arr = Ok (arr', k) /\ length arr' = length arr /\ drop n arr' = drop n arr /\ 1 <= k <= n /\
    ascending (take k arr') /\ (forall t, t ∈ take k arr' -> t ∈ take n arr) /\ (forall t, t ∈ take n arr -> fst t ∈ fst <$> take k arr').
Proof.
  intros V sortT HsT n arr Hn Hl. unfold removeDuplicates, sortFirst. destruct (Nat.ltb_spec (length arr) n) as [?|_]; [lia|]. cbn [bind].
  destruct (HsT tripleLt sw_tripleLt (take n arr)) as [Hp Ho]. set (s := sortT tripleLt (take n arr)) in *.
  assert (Hs : length s = n) by (rewrite (Permutation_length Hp), take_length; lia).
  destruct (unique_ok (tripleLt (V := V))) with (s := s) (tl := drop n arr) as (u & rest & Hu & Hlen & Hss & Hin & Hcov & Hdr & Hk).
  - apply sw_tripleLt.
  - apply lt_total.
  - apply lt_key.
  - exact Ho.
  - intros E. rewrite E in Hs. simpl in Hs. lia.
  - rewrite Hs in Hu, Hdr, Hk. exists (u ++ rest), (length u). split; [exact Hu|]. split; [rewrite Hlen, app_length, Hs, drop_length; lia|]. split; [exact Hdr|]. split; [exact Hk|].
    rewrite take_app. split; [apply ascending_lt, Hss|]. split; [intros t Ht; rewrite <- Hp; apply Hin, Ht|].
    intros t Ht. destruct (Hcov t) as (y & Hy & E); [rewrite Hp; exact Ht|]. apply elem_of_list_fmap. exists y. auto.
Qed.
Print Assumptions C55_remove_duplicates_partial.
Definition exTr : list (triple Z) := [(2, 1, 5%Z); (0, 3, 6%Z); (2, 1, 7%Z); (1, 1, 8%Z)].
Example C55_remove_example : exists arr', removeDuplicates isort 3 exTr = Ok (arr', 2) /\ take 2 arr' = [(0, 3, 6%Z); (2, 1, 5%Z)].
Proof. eexists. split; reflexivity. Qed.

(** Finding: of no values, removeDuplicates returns one. *)
Theorem C55_remove_none_refuted : forall V sortT, std_sort sortT -> forall arr : list (triple V), removeDuplicates sortT 0 arr = Ok (arr, 1).
Proof.
  intros V sortT HsT arr. unfold removeDuplicates, sortFirst. cbn [Nat.ltb Nat.leb]. destruct (HsT tripleLt sw_tripleLt (take 0 arr)) as [Hp _]. destruct (sortT tripleLt (take 0 arr)) as [|x l]; [reflexivity|].
  apply Permutation_length in Hp. discriminate.
Qed.
Print Assumptions C55_remove_none_refuted.

(** C55.  generateRandomTriples with n at least 1 fills n cells; the first k hold 1 at exactly the positions
    drawn, each once, in ascending order. *)
Theorem C55_generate_partial :
  forall V (zero one : V) sortT, std_sort sortT -> forall (draws : nat -> nat * nat) n, 1 <= n ->
  exists arr k, generateRandomTriples sortT zero one draws n = Ok (arr, k) /\ length arr = n /\ 1 <= k <= n /\ ascending (take k arr) /\
    forall t, t ∈ take k arr <-> snd t = one /\ exists i, i < n /\ fst t = draws i.
Proof.
  intros V zero one sortT HsT draws n Hn. unfold generateRandomTriples.
  match goal with |- context [for_ 0 n ?f ?s] => assert (Hfill : for_ 0 n f s = Ok ((fun i => (draws i, one) : triple V) <$> seq 0 n)) end.
  { match goal with |- for_ 0 n ?f ?s = _ => destruct (for_inv (fun i (arr : list (triple V)) => arr = ((fun i => (draws i, one) : triple V) <$> seq 0 i) ++ replicate (n - i) (triple0 zero))
      f 0 n s) as (arr & E & ->) end.
    - lia.
    - rewrite Nat.sub_0_r. reflexivity.
    - intros i arr Hi ->. eexists. split; [apply set_Ok; rewrite app_length, fmap_length, seq_length, replicate_length; lia|].
      rewrite seq_app, fmap_app, <- app_assoc. rewrite insert_app_r_alt by (rewrite fmap_length, seq_length; lia). rewrite fmap_length, seq_length, Nat.sub_diag.
      replace (n - i) with (S (n - (i + 1))) by lia. cbn. destruct (draws i); reflexivity.
    - etransitivity; [exact E|]. rewrite Nat.sub_diag. cbn [replicate]. rewrite app_nil_r. reflexivity. }
  rewrite Hfill. cbn [bind]. destruct (C55_remove_duplicates_partial V sortT HsT n ((fun i => (draws i, one)) <$> seq 0 n) Hn) as (arr & k & E & H1 & _ & H3 & H4 & H5 & H6);
    [rewrite fmap_length, seq_length; lia|].
  exists arr, k. rewrite fmap_length, seq_length in H1. do 3 (split; [assumption|]). split; [exact H4|]. set (all := (fun i => (draws i, one) : triple V) <$> seq 0 n) in *. assert (Et : take n all = all) by (apply take_ge; unfold all; rewrite fmap_length, seq_length; lia).
  change (take n ((λ i : nat, (draws i, one)) <$> seq 0 n)) with (take n all) in H5, H6. rewrite Et in H5, H6.
  assert (H5' : forall t, t ∈ take k arr -> snd t = one /\ exists i, i < n /\ fst t = draws i).
  { intros t Ht. apply H5 in Ht. apply elem_of_list_fmap in Ht as (i & -> & Hi). apply elem_of_seq in Hi. split; [reflexivity|]. exists i. split; [lia|reflexivity]. }
  intros t. split; [apply H5'|]. intros (Hv & i & Hi & Hd). assert (Ht : (draws i, one) ∈ (fun i => (draws i, one)) <$> seq 0 n) by (apply elem_of_list_fmap; exists i; split; [reflexivity|apply elem_of_seq; lia]).
  apply H6 in Ht. apply elem_of_list_fmap in Ht as (t' & E' & Ht'). destruct (H5' t' Ht') as [Hv' _]. destruct t as [x v], t' as [x' v']. cbn in *. subst. exact Ht'.
Qed.
Print Assumptions C55_generate_partial.
(** Finding: asked for no values it returns one, with an array of no cells. *)
Theorem C55_generate_none_refuted : forall V (zero one : V) sortT, std_sort sortT -> forall draws, generateRandomTriples sortT zero one draws 0 = Ok ([], 1).
Proof. intros V zero one sortT HsT draws. unfold generateRandomTriples. cbn [for_ for_n bind Nat.sub replicate]. apply C55_remove_none_refuted, HsT. Qed.
Print Assumptions C55_generate_none_refuted.

(** ** HeatMap *)
(** The numbers are drawn from the stated ranges. *)
Definition in_range (draws : nat -> nat -> nat -> nat * nat) : Prop :=
  forall r c i, 1 <= r -> 1 <= c -> fst (draws r c i) < r /\ snd (draws r c i) < c.

(** C55.  The matrix made for a degree: always the same, of the shape asked for, 1 at exactly the drawn positions, in
    order; and its CSR form is the same matrix, in order. *)
Theorem C55_er_matrix_partial :
  forall V (zero one : V) (ltV : V -> V -> Prop) sortT stdsort draws, std_sort sortT -> sort_contract ltV stdsort -> in_range draws ->
  forall nrows ncols deg, 1 <= nrows -> 1 <= ncols -> (1 <= deg)%N -> (N.of_nat nrows * deg < 2 ^ 32)%N ->
  exists X Y, erMatrix_ends zero one sortT stdsort draws nrows ncols deg X Y /\
    (forall X' Y', erMatrix_ends zero one sortT stdsort draws nrows ncols deg X' Y' -> X' = X /\ Y' = Y) /\
    wf_csc X /\ c_rows X = nrows /\ c_cols X = ncols /\ sorted_cols X /\
    (forall i j v, (i, v) ∈ col_entries X j <-> v = one /\ exists k, k < nrows * N.to_nat deg /\ draws nrows ncols k = (i, j)) /\
    wf Y /\ same_matrix Y X /\ sorted_rows Y.
Proof.
  intros V zero one ltV sortT stdsort draws HsT Hss Hdr nrows ncols deg Hr Hc Hd Hlt.
  assert (En : N.to_nat ((N.of_nat nrows * deg) mod 2 ^ 32) = nrows * N.to_nat deg) by (rewrite N.mod_small by exact Hlt; lia).
  assert (Hn : 1 <= nrows * N.to_nat deg) by nia.
  destruct (C55_generate_partial V zero one sortT HsT (draws nrows ncols) (nrows * N.to_nat deg) Hn) as (arr & k & E & Hl & Hk & Ha & Hel).
  assert (Hu : exists u rest : list (nat * nat * V), arr = u ++ rest /\ length u = k /\ take k arr = u).
  { exists (take k arr), (drop k arr). split; [symmetry; apply take_drop|]. split; [|reflexivity]. etransitivity; [apply take_length|]. apply Nat.min_l.
    exact (Nat.le_trans _ _ _ (proj2 Hk) (Nat.eq_le_incl _ _ (eq_sym Hl))). }
  destruct Hu as (u & rest & Eu & Hlu & Et). rewrite Et in Ha, Hel.
  assert (Hall : Forall (fun x => fst (fst x) < nrows /\ snd (fst x) < ncols) u).
  { apply Forall_forall. intros t Ht. apply Hel in Ht as (_ & i & _ & ->). apply Hdr; assumption. }
  destruct (C42_from_triples V ltV zero stdsort Hss u nrows ncols Hall) as (X & H1 & H2 & H3 & H4 & H5 & H6 & H7 & _).
  destruct (csrOfCsc_correct zero X H3) as (Y & EY & HwY & Hsm & _ & _ & HrY).
  assert (Hnd : NoDup (fst <$> triples_csc X)) by (rewrite H6; apply ascending_nodup, Ha).
  assert (Hdc : forall j, j < c_cols X -> NoDup (fst <$> col_entries X j)) by (apply cols_nodup; exact Hnd).
  assert (Hiff : forall X', cscOfItems_ends zero stdsort arr k nrows ncols X' <-> cscOfItems_ends zero stdsort u (length u) nrows ncols X').
  { intros X'. rewrite <- Hlu, Eu. apply (cscOfItems_prefix zero stdsort u rest nrows ncols X'). }
  exists X, Y. split; [|split; [|split; [exact H3|split; [exact H4|split; [exact H5|split; [|split; [|split; [exact HwY|split; [exact Hsm|]]]]]]]]].
  - exists arr, k. rewrite En. split; [exact E|]. split; [apply Hiff, H1|exact EY].
  - intros X' Y' (arr' & k' & E' & HX' & HY'). rewrite En, E in E'. injection E' as <- <-. apply Hiff, H2 in HX' as ->. rewrite EY in HY'. injection HY' as <-. auto.
  - intros j Hj. apply strict_of_le; [apply H7; lia|apply Hdc, Hj].
  - intros i j v. rewrite <- (triples_elem X i j v H3), H6, Hel. cbn [fst snd]. split; intros (-> & q & Hq & Eq); (split; [reflexivity|]; exists q; auto).
  - intros i Hi. apply (HrY i Hi). intros j Hj. apply Hdc, Hj.
Qed.
Print Assumptions C55_er_matrix_partial.

(** Finding: the generator starts from the same seed in every call.  The matrix of a degree is part of the matrix of
    any larger degree of the same shape, and matrices of one shape and degree are equal: A and the mask M of one
    degree are the same matrix. *)
Theorem C55_independent_refuted :
  forall V (zero one : V) (ltV : V -> V -> Prop) sortT stdsort draws, std_sort sortT -> sort_contract ltV stdsort -> in_range draws ->
  forall nrows ncols d d' X Y X' Y', 1 <= nrows -> 1 <= ncols -> (1 <= d)%N -> (d <= d')%N -> (N.of_nat nrows * d' < 2 ^ 32)%N ->
  erMatrix_ends zero one sortT stdsort draws nrows ncols d X Y -> erMatrix_ends zero one sortT stdsort draws nrows ncols d' X' Y' ->
  (forall i j v, (i, v) ∈ col_entries X j -> (i, v) ∈ col_entries X' j) /\ (d = d' -> X = X' /\ Y = Y').
Proof.
  intros V zero one ltV sortT stdsort draws HsT Hss Hdr nrows ncols d d' X Y X' Y' Hr Hc Hd Hdd Hlt HX HX'.
  destruct (C55_er_matrix_partial V zero one ltV sortT stdsort draws HsT Hss Hdr nrows ncols d Hr Hc Hd) as (X1 & Y1 & _ & U & _ & _ & _ & _ & El & _); [nia|].
  destruct (C55_er_matrix_partial V zero one ltV sortT stdsort draws HsT Hss Hdr nrows ncols d' Hr Hc) as (X2 & Y2 & _ & U' & _ & _ & _ & _ & El' & _); [lia|exact Hlt|].
  destruct (U _ _ HX) as [-> ->], (U' _ _ HX') as [-> ->]. split.
  - intros i j v Hin. apply El in Hin as (-> & k & Hk & E). apply El'. split; [reflexivity|]. exists k. split; [|exact E]. assert (N.to_nat d <= N.to_nat d') by lia. nia.
  - intros ->. exact (U' _ _ HX).
Qed.
Print Assumptions C55_independent_refuted.

(** C55.  The loop over the degrees runs through degMin, 2 degMin, 4 degMin ... up to degMax. *)
Lemma degrees_ok n : forall deg degMax, (1 <= deg)%N -> (degMax < 2 ^ 31)%N -> (degMax < deg * 2 ^ N.of_nat n)%N ->
  exists ds, degrees n deg degMax = Ok ds /\ (forall k d, ds !! k = Some d -> d = (deg * 2 ^ N.of_nat k)%N /\ (d <= degMax)%N) /\
    (forall k, (deg * 2 ^ N.of_nat k <= degMax)%N -> k < length ds).
Proof.
  induction n as [|n IH]; intros deg degMax Hd Hm Hn.
  - cbn [degrees]. change (2 ^ N.of_nat 0)%N with 1%N in Hn. destruct (N.leb_spec deg degMax) as [?|_]; [lia|]. exists []. split; [reflexivity|]. split; [intros k d H; discriminate|].
    intros k Hk. assert (1 <= 2 ^ N.of_nat k)%N by (pose proof (N.pow_nonzero 2 (N.of_nat k) ltac:(discriminate)); lia). nia.
  - cbn [degrees]. destruct (N.leb_spec deg degMax) as [Hle|Hgt].
    + assert (E2 : (2 ^ N.of_nat (S n) = 2 * 2 ^ N.of_nat n)%N) by (rewrite Nat2N.inj_succ, N.pow_succ_r'; reflexivity).
      assert (Em : ((deg * 2) mod 2 ^ 32 = deg * 2)%N) by (apply N.mod_small; change (2 ^ 32)%N with (2 ^ 31 * 2)%N; apply N.mul_lt_mono_pos_r; [reflexivity|]; eapply N.le_lt_trans; eassumption).
      rewrite Em. destruct (IH (deg * 2)%N degMax) as (ds & -> & H1 & H2); [lia|exact Hm|rewrite E2 in Hn; lia|]. cbn [bind]. exists (deg :: ds). split; [reflexivity|].
      assert (Es : forall k, (deg * 2 ^ N.of_nat (S k) = deg * 2 * 2 ^ N.of_nat k)%N) by (intros k; rewrite Nat2N.inj_succ, N.pow_succ_r'; lia). split.
      * intros [|k] d Hk; cbn in Hk; [injection Hk as <-; split; [rewrite N.pow_0_r; lia|exact Hle]|]. rewrite Es. apply H1, Hk.
      * intros [|k] Hk; cbn [length]; [lia|]. rewrite Es in Hk. apply H2 in Hk. lia.
    + exists []. split; [reflexivity|]. split; [intros k d H; discriminate|]. intros k Hk. assert (1 <= 2 ^ N.of_nat k)%N by (pose proof (N.pow_nonzero 2 (N.of_nat k) ltac:(discriminate)); lia). nia.
Qed.
Lemma degrees_fuel n : forall m deg degMax ds ds', degrees n deg degMax = Ok ds -> degrees m deg degMax = Ok ds' -> ds = ds'.
Proof.
  induction n as [|n IH]; intros [|m] deg degMax ds ds'; cbn [degrees]; destruct (deg <=? degMax)%N; try congruence.
  destruct (degrees n _ _) as [l|] eqn:E1; [|discriminate]. destruct (degrees m _ _) as [l'|] eqn:E2; [|discriminate]. cbn [bind]. intros [= <-] [= <-]. f_equal. eapply IH; eassumption.
Qed.
Theorem C55_degrees_partial :
  forall degMin degMax, (1 <= degMin)%N -> (degMax < 2 ^ 31)%N ->
  exists fuel ds, degrees fuel degMin degMax = Ok ds /\ (forall fuel' ds', degrees fuel' degMin degMax = Ok ds' -> ds' = ds) /\
    forall k d, ds !! k = Some d <-> d = (degMin * 2 ^ N.of_nat k)%N /\ (d <= degMax)%N.
Proof.
  intros degMin degMax H1 H2. destruct (degrees_ok 31 degMin degMax H1 H2) as (ds & E & Ha & Hb).
  - change (N.of_nat 31) with 31%N. nia.
  - exists 31, ds. split; [exact E|]. split; [intros; eapply degrees_fuel; eassumption|]. intros k d. split; [apply Ha|]. intros [-> Hd].
    destruct (lookup_lt_is_Some_2 ds k (Hb k Hd)) as [d Hk]. rewrite Hk. f_equal. apply (Ha k d Hk).
Qed.
Print Assumptions C55_degrees_partial.
Example C55_degrees_example : degrees 5 1 8 = Ok [1; 2; 4; 8]%N.
Proof. reflexivity. Qed.
(** Finding: from degree 0, or up to the largest number, the loop never ends. *)
Theorem C55_degrees_refuted : forall fuel degMin degMax, degMin = 0%N \/ (degMin <= degMax /\ degMax = 2 ^ 32 - 1)%N -> degrees fuel degMin degMax = Err OutOfFuel.
Proof.
  induction fuel as [|fuel IH]; intros d m H; cbn [degrees].
  - destruct (N.leb_spec d m); [reflexivity|lia].
  - destruct (N.leb_spec d m) as [Hle|Hgt]; [|lia]. rewrite IH; [reflexivity|]. destruct H as [->|[_ ->]]; [left; reflexivity|right].
    split; [|reflexivity]. assert ((d * 2) mod 2 ^ 32 < 2 ^ 32)%N by (apply N.mod_lt; discriminate). lia.
Qed.
Print Assumptions C55_degrees_refuted.

(** What the matrices of one vector are like. *)
Definition er_good {V} (one : V) (nrows ncols : nat) (X : csc V) (Y : csr V) : Prop :=
  wf_csc X /\ c_rows X = nrows /\ c_cols X = ncols /\ sorted_cols X /\ (forall i j v, (i, v) ∈ col_entries X j -> v = one) /\
  wf Y /\ same_matrix Y X /\ sorted_rows Y.
Lemma create_ok {V} (zero one : V) (ltV : V -> V -> Prop) sortT stdsort draws : std_sort sortT -> sort_contract ltV stdsort -> in_range draws ->
  forall nrows ncols degMin degMax, 1 <= nrows -> 1 <= ncols -> (1 <= degMin)%N -> (degMax < 2 ^ 31)%N -> (N.of_nat nrows * degMax < 2 ^ 32)%N ->
  exists cs rs, createMatrices_ends zero one sortT stdsort draws nrows ncols degMin degMax cs rs /\
    (forall cs' rs', createMatrices_ends zero one sortT stdsort draws nrows ncols degMin degMax cs' rs' -> cs' = cs /\ rs' = rs) /\
    (forall k X d, cs !! k = Some (X, d) -> d = (degMin * 2 ^ N.of_nat k)%N /\ (d <= degMax)%N /\ exists Y, rs !! k = Some (Y, d) /\ er_good one nrows ncols X Y) /\
    (forall k Y d, rs !! k = Some (Y, d) -> exists X, cs !! k = Some (X, d)) /\
    forall k, (degMin * 2 ^ N.of_nat k <= degMax)%N -> k < length cs.
Proof.
  intros HsT Hss Hdr nrows ncols degMin degMax Hr Hc Hmin Hmax Hlt.
  destruct (C55_degrees_partial degMin degMax Hmin Hmax) as (fuel & ds & E & U & Hds).
  set (er := erMatrix_ends zero one sortT stdsort draws nrows ncols).
  assert (Hper : forall d, d ∈ ds -> exists X Y, er d X Y /\ (forall X' Y', er d X' Y' -> X' = X /\ Y' = Y) /\ er_good one nrows ncols X Y).
  { intros d Hd. apply elem_of_list_lookup in Hd as [k Hk]. apply Hds in Hk as [Ed Hle].
    destruct (C55_er_matrix_partial V zero one ltV sortT stdsort draws HsT Hss Hdr nrows ncols d Hr Hc) as (X & Y & H1 & H2 & H3 & H4 & H5 & H6 & H7 & H8 & H9 & H10).
    - pose proof (N.pow_nonzero 2 (N.of_nat k) ltac:(discriminate)). nia.
    - nia.
    - exists X, Y. split; [exact H1|]. split; [exact H2|]. unfold er_good. do 4 (split; [assumption|]). split; [|auto]. intros i j v Hin. apply H7 in Hin. apply Hin. }
  assert (Hps : exists ps : list (csc V * csr V), Forall2 (fun d p => er d (fst p) (snd p) /\ (forall X' Y', er d X' Y' -> X' = fst p /\ Y' = snd p) /\ er_good one nrows ncols (fst p) (snd p)) ds ps).
  { clear Hds E U. induction ds as [|d ds IH]; [exists []; constructor|]. destruct (Hper d) as (X & Y & H); [left|]. destruct IH as [ps IH]; [intros x Hx; apply Hper; right; exact Hx|].
    exists ((X, Y) :: ps). constructor; assumption. }
  destruct Hps as [ps Hps]. pose proof (Forall2_length _ _ _ Hps) as Hlen.
  exists (zip (fst <$> ps) ds), (zip (snd <$> ps) ds).
  assert (Hcs : forall k X d, zip (fst <$> ps) ds !! k = Some (X, d) <-> ds !! k = Some d /\ exists Y, ps !! k = Some (X, Y)).
  { intros k X d. rewrite lookup_zip_with, list_lookup_fmap. destruct (ps !! k) as [[X' Y']|] eqn:Ep, (ds !! k) as [d'|] eqn:Ed; cbn; naive_solver. }
  assert (Hrs : forall k Y d, zip (snd <$> ps) ds !! k = Some (Y, d) <-> ds !! k = Some d /\ exists X, ps !! k = Some (X, Y)).
  { intros k X d. rewrite lookup_zip_with, list_lookup_fmap. destruct (ps !! k) as [[X' Y']|] eqn:Ep, (ds !! k) as [d'|] eqn:Ed; cbn; naive_solver. }
  assert (Hzl : length (zip (fst <$> ps) ds) = length ds /\ length (zip (snd <$> ps) ds) = length ds) by (rewrite !zip_with_length, !fmap_length; lia).
  split; [|split; [|split; [|split]]].
  - exists fuel, ds. split; [exact E|]. split; [apply Hzl|]. split; [apply Hzl|]. intros k d Hk. destruct (lookup_lt_is_Some_2 ps k) as [[X Y] Hp]; [rewrite <- Hlen; eapply lookup_lt_Some; eauto|].
    exists X, Y. destruct (Forall2_lookup_lr _ _ _ _ _ _ Hps Hk Hp) as [He _]. split; [exact He|]. split; [apply Hcs|apply Hrs]; eauto.
  - intros cs' rs' (fuel' & ds' & E' & L1 & L2 & Hall). rewrite (U _ _ E') in *. clear ds' E'. split.
    + apply list_eq. intros k. destruct (ds !! k) as [d|] eqn:Hk.
      * destruct (Hall k d Hk) as (X' & Y' & He & -> & _). destruct (lookup_lt_is_Some_2 ps k) as [[X Y] Hp]; [rewrite <- Hlen; eapply lookup_lt_Some; eauto|].
        destruct (Forall2_lookup_lr _ _ _ _ _ _ Hps Hk Hp) as (_ & Hu & _). destruct (Hu _ _ He) as [-> ->]. symmetry. apply Hcs. eauto.
      * apply lookup_ge_None in Hk. rewrite !lookup_ge_None_2; [reflexivity|lia|lia].
    + apply list_eq. intros k. destruct (ds !! k) as [d|] eqn:Hk.
      * destruct (Hall k d Hk) as (X' & Y' & He & _ & ->). destruct (lookup_lt_is_Some_2 ps k) as [[X Y] Hp]; [rewrite <- Hlen; eapply lookup_lt_Some; eauto|].
        destruct (Forall2_lookup_lr _ _ _ _ _ _ Hps Hk Hp) as (_ & Hu & _). destruct (Hu _ _ He) as [-> ->]. symmetry. apply Hrs. eauto.
      * apply lookup_ge_None in Hk. rewrite !lookup_ge_None_2; [reflexivity|lia|lia].
  - intros k X d Hk. apply Hcs in Hk as [Hk [Y Hp]]. pose proof (proj1 (Hds k d) Hk) as [Ed Hle]. split; [exact Ed|]. split; [exact Hle|].
    exists Y. split; [apply Hrs; eauto|]. apply (Forall2_lookup_lr _ _ _ _ _ _ Hps Hk Hp).
  - intros k Y d Hk. apply Hrs in Hk as [Hk [X Hp]]. exists X. apply Hcs. eauto.
  - intros k Hk. rewrite (proj1 Hzl). eapply lookup_lt_Some. apply Hds. split; [reflexivity|exact Hk].
Qed.

(** C55.  The inputs of one dimension are made whatever the interleaving, always the same; any A, B and M of them
    have matching shapes and meet the conditions under which C05 to C16 describe the algorithms that are run. *)
Theorem C55_heat_partial :
  forall V (zero one : V) (ltV : V -> V -> Prop) sortT stdsort draws, std_sort sortT -> sort_contract ltV stdsort -> in_range draws ->
  forall maxRowsA dim dAMin dAMax dBMin dBMax dMMin dMMax, 1 <= maxRowsA -> 1 <= dim -> (1 <= dAMin)%N -> (1 <= dBMin)%N -> (1 <= dMMin)%N ->
  (dAMax < 2 ^ 31)%N -> (dBMax < 2 ^ 31)%N -> (dMMax < 2 ^ 31)%N ->
  (N.of_nat dim * dAMax < 2 ^ 32)%N -> (N.of_nat dim * dBMax < 2 ^ 32)%N -> (N.of_nat dim * dMMax < 2 ^ 32)%N ->
  exists rA cB rB rM,
    heatInputs_ends zero one sortT stdsort draws maxRowsA dim dAMin dAMax dBMin dBMax dMMin dMMax rA cB rB rM /\
    (forall rA' cB' rB' rM', heatInputs_ends zero one sortT stdsort draws maxRowsA dim dAMin dAMax dBMin dBMax dMMin dMMax rA' cB' rB' rM' ->
      rA' = rA /\ cB' = cB /\ rB' = rB /\ rM' = rM) /\
    length cB = length rB /\
    forall a b m A B Bc M dA dB dB' dM, rA !! a = Some (A, dA) -> rB !! b = Some (B, dB) -> cB !! b = Some (Bc, dB') -> rM !! m = Some (M, dM) ->
      compatible A B M /\ 1 <= rows A <= dim /\ cols B = dim /\ sorted_rows A /\ sorted_rows B /\ sorted_rows M /\ wf_csc Bc /\ same_matrix B Bc /\ sorted_cols Bc /\
      dA = (dAMin * 2 ^ N.of_nat a)%N /\ dB = (dBMin * 2 ^ N.of_nat b)%N /\ dB' = dB /\ dM = (dMMin * 2 ^ N.of_nat m)%N.
Proof.
  intros V zero one ltV sortT stdsort draws HsT Hss Hdr maxRowsA dim dAMin dAMax dBMin dBMax dMMin dMMax Hmr Hdim HA HB HM HA' HB' HM' HA2 HB2 HM2.
  set (n := Nat.min maxRowsA dim). assert (Hn : 1 <= n <= dim) by lia.
  destruct (create_ok zero one ltV sortT stdsort draws HsT Hss Hdr n dim dAMin dAMax) as (cA & rA & A1 & A2 & A3 & A4 & _); try assumption; try lia; [nia|].
  destruct (create_ok zero one ltV sortT stdsort draws HsT Hss Hdr dim dim dBMin dBMax) as (cB & rB & B1 & B2 & B3 & B4 & _); try assumption; try lia.
  destruct (create_ok zero one ltV sortT stdsort draws HsT Hss Hdr n dim dMMin dMMax) as (cM & rM & M1 & M2 & M3 & M4 & _); try assumption; try lia; [nia|].
  exists rA, cB, rB, rM. split; [|split; [|split]].
  - split; [exists cA; exact A1|]. split; [exact B1|exists cM; exact M1].
  - intros rA' cB' rB' rM' ((cA' & HA1) & HB1 & cM' & HM1). destruct (A2 _ _ HA1) as [_ ->], (B2 _ _ HB1) as [-> ->], (M2 _ _ HM1) as [_ ->]. auto.
  - destruct B1 as (? & ds & _ & L1 & L2 & _). congruence.
  - intros a b m A B Bc M dA dB dB' dM Ha Hb Hbc Hm. destruct (A4 _ _ _ Ha) as [Ac HAc]. destruct (A3 _ _ _ HAc) as (EA & _ & A'' & HA'' & GA). rewrite Ha in HA''. injection HA'' as <-.
    destruct (B3 _ _ _ Hbc) as (EB & _ & B'' & HB'' & GB). rewrite Hb in HB''. injection HB'' as <- ->.
    destruct (M4 _ _ _ Hm) as [Mc HMc]. destruct (M3 _ _ _ HMc) as (EM & _ & M'' & HM'' & GM). rewrite Hm in HM''. injection HM'' as <-.
    destruct GA as (_ & RA & CA & _ & _ & WA & SA & OA), GB as (WBc & RB & CB & SBc & _ & WB & SB & OB), GM as (_ & RM & CM & _ & _ & WM & SM & OM).
    destruct SA as [SA1 SA2 _], SM as [SM1 SM2 _]. pose proof SB as [SB1 SB2 _].
    split; [constructor; first [assumption|congruence]|]. split; [lia|]. split; [congruence|]. repeat (split; [assumption|]). auto.
Qed.
Print Assumptions C55_heat_partial.

(** Numbers in the stated ranges, and the matrix of degree 1 they give. *)
Definition exDraws (r c i : nat) : nat * nat := ((i * 5) mod r, (i * i) mod c).
Example C55_draws_example : in_range exDraws /\
  generateRandomTriples isort 0%Z 1%Z (exDraws 3 4) 3 = Ok ([(0, 0, 1%Z); (1, 0, 1%Z); (2, 1, 1%Z)], 3).
Proof. split; [|reflexivity]. intros r c i Hr Hc. cbn. split; apply Nat.mod_upper_bound; lia. Qed.

(** C55.  Without sameAB every combination is run, each once; with sameAB, and at least as many B as A, those with
    equal indices of A and B. *)
Lemma visit_ok (idxA idxB nB nM : nat) (acc : list (nat * nat * nat)) : idxB < nB ->
  for_ 0 nM (fun idxM acc => if idxB <? nB then Ok (acc ++ [(idxA, idxB, idxM)]) else Err OutOfBounds) acc = Ok (acc ++ ((fun m : nat => (idxA, idxB, m)) <$> seq 0 nM)).
Proof.
  intros Hb. destruct (for_inv (fun m l => l = acc ++ ((fun m : nat => (idxA, idxB, m)) <$> seq 0 m))
    (fun idxM acc => if idxB <? nB then Ok (acc ++ [(idxA, idxB, idxM)]) else Err OutOfBounds) 0 nM acc) as (l & E & ->); [lia|rewrite app_nil_r; reflexivity| |exact E].
  intros m l _ ->. destruct (Nat.ltb_spec idxB nB); [|lia]. eexists. split; [reflexivity|]. rewrite seq_app, fmap_app, app_assoc. reflexivity.
Qed.
Theorem C55_visits_partial :
  forall (sameAB : bool) nA nB nM, (sameAB = true -> nA <= nB) ->
  exists l, heatVisits sameAB nA nB nM = Ok l /\ NoDup l /\
    forall a b m, (a, b, m) ∈ l <-> a < nA /\ b < nB /\ m < nM /\ (sameAB = true -> a = b).
Proof.
  intros sameAB nA nB nM Hs. unfold heatVisits.
  set (row (a : nat) := mjoin ((fun b : nat => (fun m : nat => (a, b, m)) <$> seq 0 nM) <$> (if sameAB then [a] else seq 0 nB))).
  exists (mjoin (row <$> seq 0 nA)). split; [|split].
  - match goal with |- for_ 0 nA ?f [] = _ => destruct (for_inv (fun a l => l = mjoin (row <$> seq 0 a)) f 0 nA []) as (l & E & ->); [lia|reflexivity| |exact E] end.
    intros a l Ha ->. eexists. split; [|reflexivity]. rewrite seq_app, fmap_app, mjoin_app. cbn [seq]. rewrite Nat.add_0_l, fmap_cons, mjoin_cons. cbn [fmap list_fmap]. 
    change (mjoin []) with (@nil (nat * nat * nat)). rewrite app_nil_r. generalize (mjoin (row <$> seq 0 a)). intros acc. unfold row. clear row. destruct sameAB.
    + specialize (Hs eq_refl). destruct (Nat.ltb_spec 0 nB); [|lia]. rewrite visit_ok by lia. cbn [fmap list_fmap]. rewrite mjoin_cons. change (mjoin []) with (@nil (nat * nat * nat)). rewrite app_nil_r. reflexivity.
    + match goal with |- for_ 0 nB ?f _ = _ => destruct (for_inv (fun b l => l = acc ++ mjoin ((fun b : nat => (fun m : nat => (a, b, m)) <$> seq 0 nM) <$> seq 0 b)) f 0 nB acc) as (l & E & ->); [lia|rewrite app_nil_r; reflexivity| |exact E] end.
      intros b l Hb ->. rewrite visit_ok by lia. eexists. split; [reflexivity|]. rewrite seq_app, fmap_app, mjoin_app. cbn [seq]. rewrite Nat.add_0_l, fmap_cons, mjoin_cons.
      cbn [fmap list_fmap]. change (mjoin []) with (@nil (nat * nat * nat)). rewrite app_nil_r, app_assoc. reflexivity.
  - apply NoDup_mjoin; [apply NoDup_seq| |].
    + intros a _. unfold row. apply NoDup_mjoin; [destruct sameAB; [apply NoDup_singleton|apply NoDup_seq]| |].
      * intros b _. apply NoDup_fmap_2; [intros x y [= ->]; reflexivity|apply NoDup_seq].
      * intros x y z _ _ Hx Hy. apply elem_of_list_fmap in Hx as (? & -> & _). apply elem_of_list_fmap in Hy as (? & [= ->] & _). reflexivity.
    + intros x y z _ _ Hx Hy. apply elem_of_list_join in Hx as (l & Hx & Hl). apply elem_of_list_fmap in Hl as (? & -> & _). apply elem_of_list_fmap in Hx as (? & -> & _).
      apply elem_of_list_join in Hy as (l & Hy & Hl). apply elem_of_list_fmap in Hl as (? & -> & _). apply elem_of_list_fmap in Hy as (? & [= ->] & _). reflexivity.
  - intros a b m. rewrite elem_of_list_join. unfold row. split.
    + intros (l & Hx & Hl). apply elem_of_list_fmap in Hl as (a' & -> & Ha). apply elem_of_list_join in Hx as (l & Hx & Hl). apply elem_of_list_fmap in Hl as (b' & -> & Hb).
      apply elem_of_list_fmap in Hx as (m' & [= -> -> ->] & Hm). apply elem_of_seq in Ha, Hm. destruct sameAB.
      * apply elem_of_list_singleton in Hb as ->. specialize (Hs eq_refl). lia.
      * apply elem_of_seq in Hb. split; [lia|]. split; [lia|]. split; [lia|discriminate].
    + intros (Ha & Hb & Hm & Heq). eexists. split; [|apply elem_of_list_fmap; exists a; split; [reflexivity|apply elem_of_seq; lia]].
      apply elem_of_list_join. eexists. split; [|apply elem_of_list_fmap; exists b; split; [reflexivity|]].
      * apply elem_of_list_fmap. exists m. split; [reflexivity|apply elem_of_seq; lia].
      * destruct sameAB; [rewrite Heq by reflexivity; left|apply elem_of_seq; lia].
Qed.
Print Assumptions C55_visits_partial.
Example C55_visits_example : heatVisits true 2 3 2 = Ok [(0, 0, 0); (0, 0, 1); (1, 1, 0); (1, 1, 1)] /\ heatVisits false 1 2 1 = Ok [(0, 0, 0); (0, 1, 0)].
Proof. split; reflexivity. Qed.
(** Finding: with sameAB and fewer degrees for B than for A, the vector of the B is read past its end. *)
Theorem C55_same_refuted : forall nA nB nM, 1 <= nB -> nB < nA -> 1 <= nM -> heatVisits true nA nB nM = Err OutOfBounds.
Proof.
  intros nA nB nM HB HA HM. unfold heatVisits. apply (oob_for_hit _) with (k := nB); [|lia|].
  - intros a acc. destruct (0 <? nB); [|left; eauto]. apply oob_for. intros m l. destruct (a <? nB); [left; eauto|right; reflexivity].
  - intros acc. destruct (Nat.ltb_spec 0 nB); [|lia]. apply (oob_for_hit _) with (k := 0); [|lia|].
    + intros m l. destruct (nB <? nB); [left; eauto|right; reflexivity].
    + intros l. rewrite Nat.ltb_irrefl. reflexivity.
Qed.
Print Assumptions C55_same_refuted.
