(** C54: the triangle count of TriCntAll.cpp. *)
From Coq Require Import NArith ZArith.
From stdpp Require Import numbers list_numbers sorting.
From Verif Require Import BaseProofs McaProofs DriverStatements Assemble MatSpec ConvProofs MatStatements PropMat GraphSpec GraphModel GraphProofs GraphCalls TriProofs
  IndexModel PropIndex PropIsect PropHashHw TriAllModel TriAllSpec TriAllProofs TriAllCalls TriAllCount.
From Verif Require Import Base Spec.
Local Open Scope nat_scope.

(** A function with the contract of std::sort. *)
Fixpoint ins {X} (lt : X -> X -> bool) (x : X) (l : list X) : list X :=
  match l with
  | [] => [x]
  | y :: l' => if lt y x then y :: ins lt x l' else x :: y :: l'
  end.
Definition isort {X} (lt : X -> X -> bool) (l : list X) : list X := foldr (ins lt) [] l.
Lemma ins_perm {X} lt (x : X) l : ins lt x l ≡ₚ x :: l.
Proof. induction l as [|y l IH]; [reflexivity|]. simpl. destruct (lt y x); [|reflexivity]. rewrite IH. apply Permutation_swap. Qed.
Lemma isort_std {X} : std_sort (@isort X).
Proof.
  intros lt [Hi Ht Hn] l. assert (H : isort lt l ≡ₚ l /\ StronglySorted (fun x y => lt y x = false) (isort lt l)).
  { induction l as [|x l [IH1 IH2]]; [split; constructor|]. cbn [isort foldr]. change (foldr (ins lt) [] l) with (isort lt l). split; [rewrite ins_perm, IH1; reflexivity|].
    clear IH1. induction IH2 as [|y s Hs IH Hy]; [repeat constructor|]. simpl. destruct (lt y x) eqn:E.
    - constructor; [exact IH|]. rewrite ins_perm. constructor; [|exact Hy]. destruct (lt x y) eqn:E'; [|reflexivity]. pose proof (Ht _ _ _ E E') as F. rewrite Hi in F. discriminate.
    - constructor; [constructor; assumption|]. constructor; [exact E|]. rewrite Forall_forall in *. intros z Hz. apply (Hn z y x); auto. }
  destruct H as [H1 H2]. split; [exact H1|]. clear H1. induction H2 as [|a s Hs IH Ha]; intros i j x y Hij Hx Hy; [discriminate|].
  destruct i as [|i], j as [|j]; try lia; simpl in Hx, Hy.
  - injection Hx as ->. rewrite Forall_forall in Ha. apply Ha. eapply elem_of_list_lookup_2; eauto.
  - apply (IH i j); auto. lia.
Qed.

(** C54.  preprocessInput on a square matrix with an entry off the diagonal always ends, with one and the same
    matrix: strictly lower triangular, ordered, all values 1, of the same shape; its undirected graph is that of
    the input with vertex i renamed to p i, the vertex of rank i by number of row entries (most first, larger
    index first among equals). *)
Theorem C54_preprocess_partial :
  forall V (zero one : V) (ltV : V -> V -> Prop) sortP sortT stdsort, std_sort sortP -> std_sort sortT -> sort_contract ltV stdsort ->
  forall (A : csc V) n, wf_csc A -> c_rows A = n -> c_cols A = n -> (exists i j, joined A i j) ->
  exists L p,
    preprocessInput_ends zero one sortP sortT stdsort A L /\
    (forall L', preprocessInput_ends zero one sortP sortT stdsort A L' -> L' = L) /\
    wf_csc L /\ c_rows L = n /\ c_cols L = n /\ sorted_cols L /\
    (forall i j v, (i, v) ∈ col_entries L j -> v = one /\ j < i) /\
    permutes n p /\
    (forall i j, i < j < n -> row_degree A (p j) < row_degree A (p i) \/ (row_degree A (p j) = row_degree A (p i) /\ p j < p i)) /\
    forall a b, a < n -> b < n -> (joined L (p a) (p b) <-> joined A a b).
Proof.
  intros V zero one ltV sortP sortT stdsort HsP HsT Hss A n Hw Hr Hc Hj.
  destruct (pre_ok zero one sortP sortT HsP HsT ltV stdsort Hss A n Hw Hr Hc Hj) as (L & H1 & H2 & H3 & H4 & H5 & H6 & H7).
  destruct (renum_ok sortP HsP A) as (Hp & Hrk & _). rewrite Hr in Hp, Hrk.
  exists L, (renum sortP A). do 6 (split; [assumption|]). split; [|split; [exact Hp|split]].
  - intros i j v Hin. apply H7 in Hin as (-> & a & b & _ & Hlt & _). auto.
  - intros i j [Hij Hjn]. apply Hrk; auto.
  - intros a b Ha Hb. destruct Hp as [Hp1 Hp2]. split.
    + intros [Hne Hin]. assert (Hcase : forall x y, x < n -> y < n -> renum sortP A x ∈ fst <$> col_entries L (renum sortP A y) -> joined A x y).
      { intros x y Hx Hy Hin'. apply elem_of_list_fmap in Hin' as ([r v] & E & Hin'). apply H7 in Hin' as (_ & a' & b' & J & _ & E1 & E2). simpl in E.
        destruct (joined_range A n a' b' Hw Hr Hc J) as [Ra Rb]. assert (x = a') by (apply Hp2; congruence). assert (y = b') by (apply Hp2; congruence). subst. exact J. }
      destruct Hin as [Hin|Hin]; [apply Hcase; auto|]. apply joined_sym, Hcase; auto.
    + intros J. assert (Hne : renum sortP A a <> renum sortP A b) by (intros E; apply (proj1 J), Hp2; auto). split; [exact Hne|].
      destruct (decide (renum sortP A b < renum sortP A a)) as [Hlt|Hge].
      * left. apply elem_of_list_fmap. exists (renum sortP A a, one). split; [reflexivity|]. apply H7. eauto 10.
      * right. apply elem_of_list_fmap. exists (renum sortP A b, one). split; [reflexivity|]. apply H7. split; [reflexivity|].
        exists b, a. split; [apply joined_sym, J|]. split; [lia|auto].
Qed.
Print Assumptions C54_preprocess_partial.

(** C54.  From a square matrix with an entry off the diagonal, every product that main runs ends, and the sum it
    prints is the number of triangles of the undirected graph without loops, modulo 2^64: for every number of
    threads, schedule and interleaving, and any implementation of std::sort. *)
Theorem C54_triangles_partial :
  forall (ltV : Z -> Z -> Prop) sortP sortT stdsort, std_sort sortP -> std_sort sortT -> sort_contract ltV stdsort ->
  forall (A : csc Z) n ts, wf_csc A -> c_rows A = n -> c_cols A = n -> (exists i j, joined A i j) -> triangles A ts ->
  exists L T,
    preprocessInput_ends 0%Z 1%Z sortP sortT stdsort A L /\
    (forall L', preprocessInput_ends 0%Z 1%Z sortP sortT stdsort A L' -> L' = L) /\
    csrOfCsc 0%Z L = Ok T /\
    forall mxm, triCall n mxm ->
      (exists C, mxm T L C) /\
      forall C, mxm T L C -> forall r, sumall_result 0%Z (stepInt 64) (plusInt 64) (values C) (nnz C) r <-> r = (Z.of_nat (length ts) mod 2 ^ 64)%Z.
Proof.
  intros ltV sortP sortT stdsort HsP HsT Hss A n ts Hw Hr Hc Hj Hts.
  destruct (pre_ok 0%Z 1%Z sortP sortT HsP HsT ltV stdsort Hss A n Hw Hr Hc Hj) as (L & H1 & H2 & H3 & H4 & H5 & H6 & H7).
  destruct (renum_ok sortP HsP A) as (Hp & _ & _). rewrite Hr in Hp.
  destruct (lower_csr 0%Z 1%Z A L n (renum sortP A) H3 H4 H5 H6 H7) as (T & ET & HG & Hsm & Hones & HE).
  exists L, T. do 3 (split; [assumption|]). intros mxm Hm.
  assert (Hn : 1 <= n) by (destruct Hj as (i & j & J); pose proof (joined_range A n i j Hw Hr Hc J); lia).
  destruct (call_ok n mxm Hm Hn T L HG H3 Hsm H6) as [Hex Hall]. split; [exact Hex|]. intros C HC r.
  rewrite (sum64 n T C HG Hones (Hall C HC) r). rewrite <- (Permutation_length (img_tris A n (renum sortP A) T Hw Hr Hc Hp HG HE ts Hts)), fmap_length. reflexivity.
Qed.
Print Assumptions C54_triangles_partial.

(** A graph with loops, parallel entries and entries stored on one side only: triangles 0-1-2 and 1-2-3. *)
Definition exTA : csc Z := mkCsc 5 5 9 [0;3;5;6;8;9] [1;0;2; 2;1; 3; 1;1; 0] [7;1;2; 3;4; 5; 6;8; 9]%Z.
Lemma exTA_wf : wf_csc exTA.
Proof.
  constructor; try reflexivity.
  - intros i a b Ha Hb. do 6 (destruct i as [|i]; [cbn in Ha, Hb; try (injection Ha as <-); try (injection Hb as <-; lia); discriminate|]). discriminate.
  - intros q c Hq. do 9 (destruct q as [|q]; [cbn in Hq; injection Hq as <-; cbn; lia|]). discriminate.
Qed.
Lemma joined_dec {V} (A : csc V) i j : joined A i j <-> negb (i =? j) && (bool_decide (i ∈ fst <$> col_entries A j) || bool_decide (j ∈ fst <$> col_entries A i)) = true.
Proof.
  unfold joined. rewrite andb_true_iff, orb_true_iff, !bool_decide_eq_true. destruct (Nat.eqb_spec i j); simpl; split; intros [? ?]; auto; congruence.
Qed.
Definition all_triangles {V} (A : csc V) (n : nat) : list (nat * nat * nat) :=
  let J i j := negb (i =? j) && (bool_decide (i ∈ fst <$> col_entries A j) || bool_decide (j ∈ fst <$> col_entries A i)) in
  mjoin ((fun c => mjoin ((fun b => (fun a => (a, b, c)) <$> filter (fun a => J a b && J b c && J a c = true) (seq 0 b)) <$> seq 0 c)) <$> seq 0 n).
Lemma all_triangles_ok {V} (A : csc V) n : wf_csc A -> c_rows A = n -> c_cols A = n -> triangles A (all_triangles A n).
Proof.
  intros Hw Hr Hc. unfold all_triangles. split.
  - apply NoDup_mjoin; [apply NoDup_seq| |].
    + intros c _. apply NoDup_mjoin; [apply NoDup_seq| |].
      * intros b _. apply NoDup_fmap; [intros x y [= ->]; reflexivity|]. apply NoDup_filter, NoDup_seq.
      * intros b b' z _ _ H1 H2. apply elem_of_list_fmap in H1 as (? & -> & _). apply elem_of_list_fmap in H2 as (? & [= _ ->] & _). reflexivity.
    + intros c c' z _ _ H1 H2. apply elem_of_list_join in H1 as (l & H1 & Hl). apply elem_of_list_fmap in Hl as (b & -> & _). apply elem_of_list_fmap in H1 as (a & -> & _).
      apply elem_of_list_join in H2 as (l & H2 & Hl). apply elem_of_list_fmap in Hl as (b' & -> & _). apply elem_of_list_fmap in H2 as (a' & [= _ _ ->] & _). reflexivity.
  - intros a b c. rewrite elem_of_list_join, !(joined_dec A). split.
    + intros (l & H1 & Hl). apply elem_of_list_fmap in Hl as (c' & -> & Hcn). apply elem_of_list_join in H1 as (l & H1 & Hl). apply elem_of_list_fmap in Hl as (b' & -> & Hb).
      apply elem_of_list_fmap in H1 as (a' & [= -> -> ->] & H1). apply elem_of_list_filter in H1 as [H1 Ha]. apply elem_of_seq in Ha, Hb, Hcn.
      apply andb_true_iff in H1 as [H1 H3]. apply andb_true_iff in H1 as [H1 H2]. split; [lia|]. split; [lia|auto].
    + intros (Hab & Hbc & J1 & J2 & J3). assert (Hcn : c < n) by (apply joined_dec in J2; apply (joined_range A n b c Hw Hr Hc J2)).
      eexists. split; [|apply elem_of_list_fmap; exists c; split; [reflexivity|apply elem_of_seq; lia]].
      apply elem_of_list_join. eexists. split; [|apply elem_of_list_fmap; exists b; split; [reflexivity|apply elem_of_seq; lia]].
      apply elem_of_list_fmap. exists a. split; [reflexivity|]. apply elem_of_list_filter. rewrite J1, J2, J3. split; [reflexivity|]. apply elem_of_seq. lia.
Qed.
Example C54_example :
  std_sort (@isort (nat * nat)) /\ std_sort (@isort (triple Z)) /\ sort_contract Z.lt (merge_sort zle) /\
  wf_csc exTA /\ joined exTA 3 1 /\ triangles exTA [(0, 1, 2); (1, 2, 3)] /\
  preTriples 0%Z 1%Z isort isort exTA = Ok ([(4, 1, 1%Z); (3, 2, 1%Z); (3, 0, 1%Z); (2, 1, 1%Z); (2, 0, 1%Z); (1, 0, 1%Z); (1, 0, 1%Z); triple0 0%Z; triple0 0%Z], 6) /\
  (exists nt W, triCall 5 (fun T _ C => SpaModel.spaSpGEMM_ends 0%Z mul64 add64 W 255 1 nt T T T C)).
Proof.
  split; [apply isort_std|]. split; [apply isort_std|]. split; [apply merge_sort_contract|]. split; [apply exTA_wf|].
  split; [apply joined_dec; vm_compute; reflexivity|]. split.
  - exact (all_triangles_ok exTA 5 exTA_wf eq_refl eq_refl).
  - split; [vm_compute; reflexivity|]. exists 3, 200. apply tc_spa; lia.
Qed.

(** Only loops: the loop that removes duplicates starts at 1 and keeps a Triple() that was never filled. *)
Lemma diag_items {V} (one : V) (A : csc V) n p : wf_csc A -> c_rows A = n -> c_cols A = n -> permutes n p ->
  (forall i j, ~ joined A i j) -> omap (pitem one p) (csc_items A) = [].
Proof.
  intros Hw Hr Hc Hp Hno. destruct (omap (pitem one p) (csc_items A)) as [|t l] eqn:E; [reflexivity|].
  assert (Ht : t ∈ omap (pitem one p) (csc_items A)) by (rewrite E; left). apply (pitems one A n p t Hw Hr Hc Hp) in Ht as (a & b & J & _). destruct (Hno a b J).
Qed.
(** Finding: with entries on the diagonal only the result is not strictly lower triangular and not all 1. *)
Theorem C54_diagonal_refuted :
  forall V (zero one : V) (ltV : V -> V -> Prop) sortP sortT stdsort, std_sort sortP -> std_sort sortT -> sort_contract ltV stdsort ->
  forall (A : csc V) n, wf_csc A -> c_rows A = n -> c_cols A = n -> c_nnz A <> 0 -> (forall i j, ~ joined A i j) ->
  (exists L, preprocessInput_ends zero one sortP sortT stdsort A L) /\
  forall L, preprocessInput_ends zero one sortP sortT stdsort A L ->
    wf_csc L /\ c_rows L = n /\ c_cols L = n /\ triples_csc L = [(0, 0, zero)].
Proof.
  intros V zero one ltV sortP sortT stdsort HsP HsT Hss A n Hw Hr Hc Hz Hno.
  destruct (renum_ok sortP HsP A) as (Hp & _ & _). rewrite Hr in Hp.
  destruct (preTriples_ok zero one sortP sortT HsP HsT A n Hw Hr Hc) as (arr & idx & Ep & H0 & _).
  destruct H0 as [-> ->]; [apply (diag_items one A n); assumption|].
  assert (Hn : 0 < n).
  { destruct (lookup_lt_is_Some_2 (rowids A) 0) as [c Hcc]; [pose proof (wf_colids _ Hw) as E; simpl in E; lia|]. apply (wf_range _ Hw) in Hcc. simpl in Hcc. lia. }
  destruct (c_nnz A) as [|m] eqn:Em; [congruence|]. cbn [replicate] in Ep.
  destruct (C42_from_triples V ltV zero stdsort Hss [triple0 zero] n n) as (L & H1 & H2 & H3 & H4 & H5 & H6 & _); [repeat constructor; exact Hn|].
  assert (Hiff : forall L', preprocessInput_ends zero one sortP sortT stdsort A L' <-> cscOfItems_ends zero stdsort [triple0 zero] 1 n n L').
  { intros L'. unfold preprocessInput_ends. rewrite Hr, Hc. split.
    - intros (arr' & idx' & Ep' & HL'). rewrite Ep in Ep'. injection Ep' as <- <-. apply (cscOfItems_prefix zero stdsort [triple0 zero] (replicate m (triple0 zero))) in HL'. exact HL'.
    - intros HL'. eexists _, _. split; [exact Ep|]. apply (cscOfItems_prefix zero stdsort [triple0 zero] (replicate m (triple0 zero))). exact HL'. }
  split; [exists L; apply Hiff; exact H1|]. intros L' HL'. apply Hiff, H2 in HL' as ->. do 3 (split; [assumption|]). apply Permutation_singleton_r in H6. exact H6.
Qed.
Print Assumptions C54_diagonal_refuted.

(** The counts are right in that case too: 0. *)
Theorem C54_diagonal_count :
  forall (ltV : Z -> Z -> Prop) sortP sortT stdsort, std_sort sortP -> std_sort sortT -> sort_contract ltV stdsort ->
  forall (A L : csc Z) n ts, wf_csc A -> c_rows A = n -> c_cols A = n -> c_nnz A <> 0 -> (forall i j, ~ joined A i j) -> triangles A ts ->
  preprocessInput_ends 0%Z 1%Z sortP sortT stdsort A L ->
  ts = [] /\ exists T, csrOfCsc 0%Z L = Ok T /\
    forall mxm, triCall n mxm ->
      (exists C, mxm T L C) /\
      forall C, mxm T L C -> forall r, sumall_result 0%Z (stepInt 64) (plusInt 64) (values C) (nnz C) r <-> r = 0%Z.
Proof.
  intros ltV sortP sortT stdsort HsP HsT Hss A L n ts Hw Hr Hc Hz Hno [_ Hts] HL.
  destruct (C54_diagonal_refuted Z 0%Z 1%Z ltV sortP sortT stdsort HsP HsT Hss A n Hw Hr Hc Hz Hno) as [_ Hall]. destruct (Hall L HL) as (H3 & H4 & H5 & H6).
  split.
  { destruct ts as [|[[a b] c] ts]; [reflexivity|]. assert (Hin : (a, b, c) ∈ (a, b, c) :: ts) by left. apply Hts in Hin as (_ & _ & J & _). destruct (Hno a b J). }
  assert (Hn : 1 <= n).
  { assert (Hin : (0, 0, 0%Z) ∈ triples_csc L) by (rewrite H6; left). apply triples_elem in Hin; [|exact H3]. apply col_range in Hin; [lia|exact H3]. }
  destruct (csrOfCsc_correct 0%Z L H3) as (T & ET & HwT & Hsm & _ & Htr & Hrow). exists T. split; [exact ET|]. pose proof Hsm as [Sr Sc Se].
  assert (Hd : distinct_cols L) by (intros j Hj; apply cols_nodup; [rewrite H6; repeat constructor; intros Hin; inversion Hin|exact Hj]).
  assert (Hs : sorted_cols L).
  { intros j Hj. destruct (fst <$> col_entries L j) as [|x [|y l]] eqn:E; [constructor|repeat constructor|]. exfalso.
    assert (Hx : forall z, z ∈ fst <$> col_entries L j -> z = 0).
    { intros z Hin. apply elem_of_list_fmap in Hin as ([r v] & -> & Hin). apply triples_elem in Hin; [|exact H3]. rewrite H6 in Hin. apply elem_of_list_singleton in Hin. injection Hin as -> _ _. reflexivity. }
    pose proof (Hd j Hj) as Hnd. rewrite E in Hx, Hnd. apply NoDup_cons in Hnd as [Hni _]. apply Hni. rewrite (Hx x), (Hx y) by (repeat constructor). left. }
  assert (HG : good n T) by (split; [exact HwT|]; split; [|split; congruence]; intros i Hi; apply Hrow; [exact Hi|exact Hd]).
  intros mxm Hm. destruct (call_ok n mxm Hm Hn T L HG H3 Hsm Hs) as [Hex Hall']. split; [exact Hex|]. intros C HC r. destruct (Hall' C HC) as (HwC & HrC & HcC & HrowC).
  rewrite C32_sumall by (rewrite (wf_values C HwC); lia). rewrite take_ge by (rewrite (wf_values C HwC); lia).
  assert (Hzero : forall i e, e ∈ row_entries T i -> snd e = 0%Z).
  { intros i [j v] Hin. pose proof (row_entries_range T i j v HwT Hin) as Hj. destruct (decide (i < rows T)) as [Hi|Hi].
    - apply Se in Hin; [|exact Hi|exact Hj]. apply triples_elem in Hin; [|exact H3]. rewrite H6 in Hin. apply elem_of_list_singleton in Hin. injection Hin as _ _ ->. reflexivity.
    - exfalso. unfold row_entries in Hin. rewrite (lookup_ge_None_2 (rowptr T) (i + 1)) in Hin by (rewrite (wf_len T HwT); lia). destruct (rowptr T !! i); inversion Hin. }
  assert (Hval : forall v, v ∈ values C -> v = 0%Z).
  { intros v Hv. rewrite (wf_assemble C HwC) in Hv. unfold assemble in Hv. cbn [values] in Hv. apply elem_of_list_fmap in Hv as ([j v'] & -> & Hv). unfold rowsOf in Hv.
    apply elem_of_list_join in Hv as (l & Hv & Hl). apply elem_of_list_fmap in Hl as (i & -> & Hi). apply elem_of_seq in Hi. rewrite HrowC in Hv by lia.
    unfold spec_row, masked_row in Hv. apply elem_of_list_omap in Hv as (j' & _ & E). unfold entry in E.
    destruct (products mul64 (row_entries T i) (row_entries T) j') as [|x xs] eqn:Ex; [discriminate|]. cbn in E. injection E as _ <-. cbn [snd].
    assert (Hx : Forall (fun v => v = 0%Z) (x :: xs)).
    { rewrite <- Ex. apply Forall_forall. intros y Hy. unfold products in Hy. apply elem_of_list_join in Hy as (l & Hy & Hl). apply elem_of_list_fmap in Hl as (ka & -> & Hka).
      apply elem_of_list_fmap in Hy as (cb & -> & _). rewrite (Hzero _ _ Hka). reflexivity. }
    inversion Hx as [|? ? -> Hxs]; subst. clear Ex Hx. induction Hxs as [|y ys -> _ IH]; [reflexivity|exact IH]. }
  assert (E : fold_right Z.add 0%Z (values C) = 0%Z).
  { clear -Hval. induction (values C) as [|v l IH]; [reflexivity|]. cbn [fold_right]. rewrite (Hval v) by left. rewrite IH; [reflexivity|]. intros w Hin. apply Hval. right. exact Hin. }
  rewrite E. reflexivity.
Qed.
Print Assumptions C54_diagonal_count.
Definition exDiag : csc Z := mkCsc 2 2 1 [0;0;1] [1] [9]%Z.
Lemma exDiag_wf : wf_csc exDiag.
Proof.
  constructor; try reflexivity.
  - intros i a b Ha Hb. do 3 (destruct i as [|i]; [cbn in Ha, Hb; try (injection Ha as <-); try (injection Hb as <-; lia); discriminate|]). discriminate.
  - intros q c Hq. destruct q as [|q]; [cbn in Hq; injection Hq as <-; cbn; lia|discriminate].
Qed.
Example C54_diagonal_example : wf_csc exDiag /\ c_nnz exDiag <> 0 /\ (forall i j, ~ joined exDiag i j).
Proof.
  split; [exact exDiag_wf|]. split; [discriminate|].
  assert (H : forall i j, i ∈ fst <$> col_entries exDiag j -> i = j).
  { intros i j Hin. apply elem_of_list_fmap in Hin as ([r v] & -> & Hin). pose proof (col_range exDiag r j v exDiag_wf Hin) as [_ Hj]. cbn in Hj.
    destruct j as [|[|j]]; [vm_compute in Hin; inversion Hin|vm_compute in Hin; apply elem_of_list_singleton in Hin; injection Hin as -> _; reflexivity|lia]. }
  intros i j [Hne [Hin|Hin]]; apply H in Hin; congruence.
Qed.

(** Finding: without entries the first of no triples is read. *)
Theorem C54_empty_refuted :
  forall V (zero one : V) sortP sortT stdsort, std_sort sortP -> std_sort sortT ->
  forall (A : csc V) n, wf_csc A -> c_rows A = n -> c_cols A = n -> c_nnz A = 0 ->
  preTriples zero one sortP sortT A = Ok ([], 1) /\ bucketItems zero ([] : list (triple V)) 1 n = Err OutOfBounds /\
  ~ (exists L, preprocessInput_ends zero one sortP sortT stdsort A L).
Proof.
  intros V zero one sortP sortT stdsort HsP HsT A n Hw Hr Hc Hz. destruct (renum_ok sortP HsP A) as (Hp & _ & _). rewrite Hr in Hp.
  destruct (preTriples_ok zero one sortP sortT HsP HsT A n Hw Hr Hc) as (arr & idx & Ep & H0 & _).
  destruct H0 as [-> ->].
  { apply (diag_items one A n); try assumption. intros i j J. assert (Hno : forall r j, r ∉ fst <$> col_entries A j).
    { intros r k Hin. apply elem_of_list_fmap in Hin as ([r' v] & _ & Hin). pose proof (col_range A r' k v Hw Hin) as [_ Hk].
      assert (Hin' : (r', (k, v)) ∈ csc_items A) by (apply items_elem; auto). pose proof (csc_items_length A Hw) as E. rewrite Hz in E.
      apply nil_length_inv in E. rewrite E in Hin'. inversion Hin'. }
    destruct J as [_ [H|H]]; eapply Hno; exact H. }
  rewrite Hz in Ep. split; [exact Ep|]. split; [reflexivity|]. intros (L & arr & idx & Ep' & HL). rewrite Ep in Ep'. injection Ep' as <- <-.
  destruct HL as (_ & _ & _ & arr & m' & Hb & _). discriminate Hb.
Qed.
Print Assumptions C54_empty_refuted.
Example C54_empty_example : wf_csc (mkCsc 2 2 0 [0;0;0] [] [] : csc Z).
Proof.
  constructor; try reflexivity; [|intros ? ? Hq; discriminate]. intros i a b Ha Hb.
  do 3 (destruct i as [|i]; [cbn in Ha, Hb; try (injection Ha as <-); try (injection Hb as <-; lia); discriminate|]). discriminate.
Qed.

(** ** Matrices with more columns than rows *)
Definition okOrOob {X} (r : res X) : Prop := (exists x, r = Ok x) \/ r = Err OutOfBounds.
Lemma oob_bind {X Y} (r : res X) (f : X -> res Y) : okOrOob r -> (forall x, okOrOob (f x)) -> okOrOob (bind r f).
Proof. intros [[x ->]| ->] H; [apply H|right; reflexivity]. Qed.
Lemma oob_get {X} (l : list X) i : okOrOob (get l i).
Proof. unfold get. destruct (l !! i); [left; eauto|right; reflexivity]. Qed.
Lemma oob_set {X} (l : list X) i x : okOrOob (set_ l i x).
Proof. unfold set_. destruct (i <? length l); [left; eauto|right; reflexivity]. Qed.
Lemma oob_for {S} (f : nat -> S -> res S) : (forall i s, okOrOob (f i s)) -> forall lo hi s, okOrOob (for_ lo hi f s).
Proof. intros H lo hi. unfold for_. generalize (hi - lo). intros n. revert lo. induction n as [|n IH]; intros i s; [left; eauto|]. cbn [for_n]. apply oob_bind; [apply H|intros x; apply IH]. Qed.
Lemma oob_for_hit {S} (f : nat -> S -> res S) : (forall i s, okOrOob (f i s)) -> forall lo hi k, lo <= k < hi -> (forall s, f k s = Err OutOfBounds) ->
  forall s, for_ lo hi f s = Err OutOfBounds.
Proof.
  intros H lo hi k Hk Hf. unfold for_. remember (hi - lo) as n eqn:En. assert (Hk' : lo <= k < lo + n) by lia. clear Hk En hi. revert lo Hk'.
  induction n as [|n IH]; intros lo Hk s; [lia|]. cbn [for_n]. destruct (decide (lo = k)) as [->|]; [rewrite Hf; reflexivity|].
  destruct (H lo s) as [[x ->]| ->]; [apply IH; lia|reflexivity].
Qed.
(** Finding: a matrix with an entry in a column past the number of rows makes the loop read past rowcnts. *)
Theorem C54_wide_refuted :
  forall V (zero one : V) sortP sortT stdsort, std_sort sortP ->
  forall (A : csc V) i j v, wf_csc A -> c_rows A <= j -> (i, v) ∈ col_entries A j ->
  preTriples zero one sortP sortT A = Err OutOfBounds /\ ~ (exists L, preprocessInput_ends zero one sortP sortT stdsort A L).
Proof.
  intros V zero one sortP sortT stdsort HsP A i j v Hw Hj Hin.
  assert (E : preTriples zero one sortP sortT A = Err OutOfBounds).
  { unfold preTriples. rewrite rowCounts_ok by exact Hw. cbn [bind].
    set (rc := sortP pairGt _). assert (Hl : length rc = c_rows A).
    { unfold rc. destruct (HsP pairGt sw_pairGt ((fun i => (row_degree A i, i)) <$> seq 0 (c_rows A))) as [Hp _]. rewrite (Permutation_length Hp), fmap_length, seq_length. reflexivity. }
    enough (E : makeTriples zero one rc A = Err OutOfBounds) by (rewrite E; reflexivity).
    destruct (col_range A i j v Hw Hin) as [_ Hjc].
    assert (Hput : forall c k s, okOrOob (putTriple one rc A c k s)).
    { intros c k [arr idx]. unfold putTriple. apply oob_bind; [apply oob_get|intros x]. apply oob_bind; [apply oob_get|intros r]. apply oob_bind; [apply oob_get|intros y].
      destruct (snd x <? snd y); [apply oob_bind; [apply oob_set|intros; left; eauto]|]. destruct (snd y <? snd x); [apply oob_bind; [apply oob_set|intros; left; eauto]|left; eauto]. }
    apply (oob_for_hit _) with (k := j); [|lia|].
    - intros c s. apply oob_bind; [apply oob_get|intros b]. apply oob_bind; [apply oob_get|intros e]. apply oob_for. intros k s'. apply Hput.
    - intros s. destruct (colptr A !! j) as [b|] eqn:Eb, (colptr A !! (j + 1)) as [e|] eqn:Ee;
        try solve [unfold col_entries, row_entries in Hin; cbn [rowptr csc_tr] in Hin; rewrite ?Eb, ?Ee in Hin; inversion Hin].
      rewrite (get_Some _ _ _ Eb), (get_Some _ _ _ Ee). cbn [bind]. apply (oob_for_hit _) with (k := b); [intros k s'; apply Hput| |].
      + destruct (decide (b < e)) as [|Hbe]; [lia|]. exfalso. unfold col_entries in Hin. rewrite (row_entries_eq (csc_tr A) j b e Eb Ee) in Hin.
        replace (e - b) with 0 in Hin by lia. inversion Hin.
      + intros [arr idx]. unfold putTriple. unfold get at 1. rewrite lookup_ge_None_2 by lia. reflexivity. }
  split; [exact E|]. intros (L & arr & idx & E' & _). rewrite E in E'. discriminate.
Qed.
Print Assumptions C54_wide_refuted.
Definition exWide : csc Z := mkCsc 1 2 1 [0;0;1] [0] [5]%Z.
Example C54_wide_example : wf_csc exWide /\ c_rows exWide <= 1 /\ (0, 5%Z) ∈ col_entries exWide 1.
Proof.
  split; [|split; [cbn; lia|vm_compute; left]]. constructor; try reflexivity.
  - intros i a b Ha Hb. do 3 (destruct i as [|i]; [cbn in Ha, Hb; try (injection Ha as <-); try (injection Hb as <-; lia); discriminate|]). discriminate.
  - intros q c Hq. destruct q as [|q]; [cbn in Hq; injection Hq as <-; cbn; lia|discriminate].
Qed.

(** ** The order of the vertices *)
(** A star: vertex 2 joined to 0, 1 and 3, stored on both sides. *)
Definition exStar : csc Z := mkCsc 4 4 6 [0;1;2;5;6] [2;2;0;1;3;2] [1;1;1;1;1;1]%Z.
Lemma exStar_wf : wf_csc exStar.
Proof.
  constructor; try reflexivity.
  - intros i a b Ha Hb. do 5 (destruct i as [|i]; [cbn in Ha, Hb; try (injection Ha as <-); try (injection Hb as <-; lia); discriminate|]). discriminate.
  - intros q c Hq. do 6 (destruct q as [|q]; [cbn in Hq; injection Hq as <-; cbn; lia|]). discriminate.
Qed.
(** Finding: preprocessInput sorts the vertices by degree, but then renames vertex i to the vertex of rank i, the
    inverse of the ranking.  The star's hub becomes vertex 1: the degrees of the new vertices 0, 1, 2, 3 are
    1, 3, 1, 1, in neither order. *)
Theorem C54_degree_refuted :
  forall sortP sortT stdsort (ltV : Z -> Z -> Prop), std_sort sortP -> std_sort sortT -> sort_contract ltV stdsort ->
  exists L, preprocessInput_ends 0%Z 1%Z sortP sortT stdsort exStar L /\ forall a b, joined L a b <-> (a = 1 /\ b < 4 /\ b <> 1) \/ (b = 1 /\ a < 4 /\ a <> 1).
Proof.
  intros sortP sortT stdsort ltV HsP HsT Hss.
  assert (Hj : forall a b, joined exStar a b <-> (a = 2 /\ b < 4 /\ b <> 2) \/ (b = 2 /\ a < 4 /\ a <> 2)).
  { intros a b. assert (Hr : forall a b, a ∈ fst <$> col_entries exStar b <-> (b < 4 /\ b <> 2 /\ a = 2) \/ (b = 2 /\ a < 4 /\ a <> 2)).
    { clear a b. intros a b. destruct (decide (b < 4)) as [Hb|Hb].
      - destruct b as [|[|[|[|b]]]]; [change (fst <$> col_entries exStar 0) with [2]|change (fst <$> col_entries exStar 1) with [2]
          |change (fst <$> col_entries exStar 2) with [0;1;3]|change (fst <$> col_entries exStar 3) with [2]|lia]; rewrite !elem_of_cons, elem_of_nil; lia.
      - split; [|lia]. intros Hin. apply elem_of_list_fmap in Hin as ([r v] & _ & Hin). apply col_range in Hin; [cbn in Hin; lia|exact exStar_wf]. }
    unfold joined. rewrite !Hr. lia. }
  destruct (pre_ok 0%Z 1%Z sortP sortT HsP HsT ltV stdsort Hss exStar 4 exStar_wf eq_refl eq_refl) as (L & H1 & _ & H3 & H4 & H5 & H6 & H7); [exists 2, 0; apply Hj; lia|].
  exists L. split; [exact H1|]. destruct (renum_ok sortP HsP exStar) as (Hp & Hrk & _). change (c_rows exStar) with 4 in Hp, Hrk.
  set (p := renum sortP exStar) in *. assert (Hd : forall k, k < 4 -> row_degree exStar k = if k =? 2 then 3 else 1).
  { intros k Hk. do 4 (destruct k as [|k]; [reflexivity|]). lia. }
  assert (P : p 0 = 2 /\ p 1 = 3 /\ p 2 = 1 /\ p 3 = 0).
  { destruct Hp as [Hp1 Hp2]. pose proof (Hp1 0 ltac:(lia)). pose proof (Hp1 1 ltac:(lia)). pose proof (Hp1 2 ltac:(lia)). pose proof (Hp1 3 ltac:(lia)).
    pose proof (Hrk 0 1 ltac:(lia) ltac:(lia)) as R1. pose proof (Hrk 1 2 ltac:(lia) ltac:(lia)) as R2. pose proof (Hrk 2 3 ltac:(lia) ltac:(lia)) as R3.
    rewrite !Hd in R1, R2, R3 by assumption. clear -H H0 H2 H8 R1 R2 R3.
    destruct (Nat.eqb_spec (p 0) 2), (Nat.eqb_spec (p 1) 2), (Nat.eqb_spec (p 2) 2), (Nat.eqb_spec (p 3) 2); lia. }
  destruct P as (P0 & P1 & P2 & P3).
  assert (HL : forall i j, i ∈ fst <$> col_entries L j <-> j < i /\ exists a b, joined exStar a b /\ i = p a /\ j = p b).
  { intros i j. rewrite elem_of_list_fmap. split; [intros ([r v] & -> & Hin); apply H7 in Hin as (_ & a & b & J & Hlt & -> & ->); cbn; eauto 10|].
    intros (Hlt & a & b & J & -> & ->). exists (p a, 1%Z). split; [reflexivity|]. apply H7. eauto 10. }
  assert (HL' : forall i j, (exists a b, joined exStar a b /\ i = p a /\ j = p b) <-> (i = 1 /\ j < 4 /\ j <> 1) \/ (j = 1 /\ i < 4 /\ i <> 1)).
  { intros i j. split.
    - intros (a & b & J & -> & ->). apply Hj in J. destruct J as [(-> & Hb & Hne)|(-> & Hb & Hne)].
      + left. rewrite P2. do 4 (destruct b as [|b]; [lia|]). lia.
      + right. rewrite P2. do 4 (destruct a as [|a]; [lia|]). lia.
    - intros [(-> & Hb & Hne)|(-> & Hb & Hne)].
      + do 4 (destruct j as [|j]; [first [lia|exists 2, 3; rewrite Hj; lia|exists 2, 0; rewrite Hj; lia|exists 2, 1; rewrite Hj; lia]|]). lia.
      + do 4 (destruct i as [|i]; [first [lia|exists 3, 2; rewrite Hj; lia|exists 0, 2; rewrite Hj; lia|exists 1, 2; rewrite Hj; lia]|]). lia. }
  intros a b. unfold joined. rewrite !HL, !HL'. lia.
Qed.
Print Assumptions C54_degree_refuted.

(** ** HashIntersect *)
(** C54.  HashIntersect always ends, with one and the same matrix: at the places of the mask where the product
    has an entry it holds the entry of the mask. *)
Theorem C54_hash_intersect_partial :
  forall V (zero : V) mul add w W stdsort top nts nt (A B M : csr V), wf A -> wf B -> wf M -> cols A = rows B -> rows M = rows A -> cols M = cols B -> sorted_rows M ->
  rows A <> 0 -> 1 <= nt -> (N.of_nat (rows A + 1) < 2 ^ 17)%N -> sort_contract (fun _ _ => False) stdsort ->
  let work i := length (touched_cols A B i) in
  sum_list (work <$> seq 0 (rows A)) + nt <= W -> 8 < W -> (forall i, i < rows A -> 2 * Nat.min (work i) (cols B) <= W) ->
  exists C,
    hashIntersect_ends zero stdsort mul add w W top nts nt A B M C /\
    (forall C', hashIntersect_ends zero stdsort mul add w W top nts nt A B M C' -> C' = C) /\
    wf C /\ rows C = rows A /\ cols C = cols B /\ sorted_rows C /\
    forall i j v, i < rows A -> ((j, v) ∈ row_entries C i <-> (j, v) ∈ row_entries M i /\ exists k, k ∈ row_cols A i /\ j ∈ row_cols B k).
Proof.
  intros V zero mul add w W stdsort top nts nt A B M HA HB HM Hc Hr Hcc HsM H0 Hnt HN Hss work HW H8 Hf.
  destruct (C46_hash_partial V zero mul add w W stdsort true top nts nt A B HA HB Hc H0 Hnt HN Hss HW H8 Hf) as (Ct & Y & U & (P1 & P2 & P3 & P4) & _).
  assert (HsC : sorted_rows Ct) by (intros i Hi; rewrite P2 in Hi; apply (P4 i Hi); reflexivity).
  destruct (C35_intersect_partial V zero (fun lhs rhs => rhs) top nt Ct M P1 HM HsC HsM) as (C & Z1 & Z2 & Q1 & Q2 & Q3 & Q4 & Q5); [congruence|congruence|congruence|].
  exists C. split; [exists Ct; auto|]. split; [intros C' (Ct' & Y' & Z'); rewrite (U _ Y') in Z'; apply Z2 in Z'; congruence|].
  split; [exact Q1|]. split; [congruence|]. split; [congruence|]. split; [exact Q4|].
  intros i j v Hi. rewrite Q5 by congruence. destruct (P4 i Hi) as (_ & P5 & _).
  assert (Hpr : (exists a, (j, a) ∈ row_entries Ct i) <-> exists k, k ∈ row_cols A i /\ j ∈ row_cols B k).
  { split.
    - intros (a & Ha). apply P5 in Ha. destruct (products mul (row_entries A i) (row_entries B) j) as [|x xs] eqn:E; [discriminate|].
      assert (Hx : x ∈ products mul (row_entries A i) (row_entries B) j) by (rewrite E; left). unfold products in Hx. apply elem_of_list_join in Hx as (l & Hx & Hl).
      apply elem_of_list_fmap in Hl as (ka & -> & Hka). apply elem_of_list_fmap in Hx as (cb & -> & Hcb). apply elem_of_list_filter in Hcb as [Ej Hcb].
      exists (fst ka). split; [apply elem_of_list_fmap; eauto|]. apply elem_of_list_fmap. exists cb. auto.
    - intros (k & Hk & Hj). apply elem_of_list_fmap in Hk as (ka & -> & Hka). apply elem_of_list_fmap in Hj as (cb & -> & Hcb).
      assert (Hx : mul (snd ka) (snd cb) ∈ products mul (row_entries A i) (row_entries B) (fst cb)).
      { unfold products. apply elem_of_list_join. eexists. split; [|apply elem_of_list_fmap; exists ka; split; [reflexivity|exact Hka]].
        apply elem_of_list_fmap. exists cb. split; [reflexivity|]. apply elem_of_list_filter. auto. }
      destruct (products mul (row_entries A i) (row_entries B) (fst cb)) as [|x xs] eqn:E; [inversion Hx|]. eexists. apply P5. rewrite E. reflexivity. }
  rewrite <- Hpr. split; [intros (a & b & Ha & Hb & ->); eauto|intros [Hm (a & Ha)]; eauto].
Qed.
Print Assumptions C54_hash_intersect_partial.

(** The entries of a matrix as pairs. *)
Definition places {V} (C : csr V) : list (nat * nat) := mjoin ((fun i => pair i <$> row_cols C i) <$> seq 0 (rows C)).
Lemma places_ok {V} (C : csr V) : wf C -> sorted_rows C -> NoDup (places C) /\ length (places C) = nnz C /\ forall i j, (i, j) ∈ places C <-> edge C i j.
Proof.
  intros Hw Hs. split; [|split].
  - apply NoDup_mjoin; [apply NoDup_seq| |].
    + intros i Hi. apply elem_of_seq in Hi. apply NoDup_fmap_2; [intros x y [= ->]; reflexivity|]. apply SSorted_NoDup, Hs. lia.
    + intros x y z _ _ Hx Hy. apply elem_of_list_fmap in Hx as (? & -> & _). apply elem_of_list_fmap in Hy as (? & [= ->] & _). reflexivity.
  - rewrite <- (wf_values C Hw). pose proof (wf_assemble C Hw) as E. rewrite E at 2. unfold assemble. cbn [values]. unfold rowsOf, places. rewrite Nat.sub_0_r, fmap_length.
    induction (seq 0 (rows C)) as [|i l IH]; [reflexivity|]. rewrite !fmap_cons, !mjoin_cons, !app_length, IH. unfold row_cols. rewrite !fmap_length. reflexivity.
  - intros i j. unfold places, edge. rewrite elem_of_list_join. split.
    + intros (l & Hin & Hl). apply elem_of_list_fmap in Hl as (i' & -> & Hi). apply elem_of_seq in Hi. apply elem_of_list_fmap in Hin as (j' & [= -> ->] & Hin). split; [lia|exact Hin].
    + intros [Hi Hin]. eexists. split; [|apply elem_of_list_fmap; exists i; split; [reflexivity|apply elem_of_seq; lia]]. apply elem_of_list_fmap. eauto.
Qed.
(** C54.  What HashIntersect makes main print: not the number of triangles but the number of edges (i, j) of the
    triangular matrix that close a triangle with a middle vertex, each counted once. *)
Theorem C54_hash_count :
  forall (ltV : Z -> Z -> Prop) sortP sortT stdsort stdsort', std_sort sortP -> std_sort sortT -> sort_contract ltV stdsort -> sort_contract (fun _ _ => False) stdsort' ->
  forall (A : csc Z) n, wf_csc A -> c_rows A = n -> c_cols A = n -> (exists i j, joined A i j) ->
  forall w W top nts nt, 1 <= nt -> (N.of_nat (n + 1) < 2 ^ 17)%N -> 8 < W -> n * n * n + nt <= W -> 2 * n <= W ->
  exists L T p,
    preprocessInput_ends 0%Z 1%Z sortP sortT stdsort A L /\ csrOfCsc 0%Z L = Ok T /\ permutes n p /\
    (exists C, hashIntersect_ends 0%Z stdsort' mul64 add64 w W top nts nt T T T C) /\
    forall C, hashIntersect_ends 0%Z stdsort' mul64 add64 w W top nts nt T T T C ->
    forall es, NoDup es -> (forall a c, (a, c) ∈ es <-> joined A a c /\ exists b, joined A a b /\ joined A b c /\ p c < p b < p a) ->
    forall r, sumall_result 0%Z (stepInt 64) (plusInt 64) (values C) (nnz C) r <-> r = (Z.of_nat (length es) mod 2 ^ 64)%Z.
Proof.
  intros ltV sortP sortT stdsort stdsort' HsP HsT Hss Hss' A n Hw Hr Hc Hj w W top nts nt Hnt HN H8 HW Hf.
  destruct (pre_ok 0%Z 1%Z sortP sortT HsP HsT ltV stdsort Hss A n Hw Hr Hc Hj) as (L & H1 & H2 & H3 & H4 & H5 & H6 & H7).
  destruct (renum_ok sortP HsP A) as (Hp & _ & _). rewrite Hr in Hp.
  destruct (lower_csr 0%Z 1%Z A L n (renum sortP A) H3 H4 H5 H6 H7) as (T & ET & HG & Hsm & Hones & HE).
  exists L, T, (renum sortP A). set (p := renum sortP A) in *. do 3 (split; [assumption|]). pose proof HG as (HwT & HsT' & HrT & HcT).
  destruct (C54_hash_intersect_partial Z 0%Z mul64 add64 w W stdsort' top nts nt T T T) as (C & Y & U & Q1 & Q2 & Q3 & Q4 & Q5);
    try assumption; try congruence; try reflexivity.
  - rewrite HrT. destruct Hj as (i & j & J). pose proof (joined_range A n i j Hw Hr Hc J). lia.
  - rewrite HrT. pose proof (touched_sum n T HG). lia.
  - intros i Hi. lia.
  - split; [eauto|]. intros C' HC' es Hnd Hes r. rewrite (U C' HC'). clear C' HC'.
    rewrite C32_sumall by (rewrite (wf_values C Q1); lia). rewrite take_ge by (rewrite (wf_values C Q1); lia).
    destruct (places_ok C Q1 Q4) as (N1 & N2 & N3).
    assert (Hv : forall v, v ∈ values C -> v = 1%Z).
    { intros v Hv. rewrite (wf_assemble C Q1) in Hv. unfold assemble in Hv. cbn [values] in Hv. apply elem_of_list_fmap in Hv as ([j v'] & -> & Hv). unfold rowsOf in Hv.
      apply elem_of_list_join in Hv as (l & Hv & Hl). apply elem_of_list_fmap in Hl as (i & -> & Hi). apply elem_of_seq in Hi. apply Q5 in Hv as [Hv _]; [|lia].
      exact (Hones i (j, v') Hv). }
    assert (E1 : fold_right Z.add 0%Z (values C) = Z.of_nat (nnz C)).
    { rewrite <- (wf_values C Q1). clear -Hv. induction (values C) as [|v l IH]; [reflexivity|]. cbn [fold_right length]. rewrite (Hv v) by left.
      rewrite IH; [lia|]. intros x Hx. apply Hv. right. exact Hx. }
    rewrite E1, <- N2. assert (E2 : (fun ac => (p (fst ac), p (snd ac))) <$> es ≡ₚ places C).
    { assert (Hres : forall a c, (a, c) ∈ es -> a < n /\ c < n) by (intros a c Hac; apply Hes in Hac as [J _]; apply (joined_range A n a c Hw Hr Hc J)).
      apply NoDup_Permutation; [|exact N1|].
      - apply NoDup_fmap_2_strong; [|exact Hnd]. intros [a c] [a' c'] Ha Ha' [= E2 E3]. apply Hres in Ha, Ha'. destruct Hp as [_ Hp2].
        rewrite (Hp2 a a'), (Hp2 c c') by tauto. reflexivity.
      - intros [i j]. rewrite N3. unfold edge. rewrite Q2. rewrite elem_of_list_fmap. split.
        + intros ([a c] & [= -> ->] & Hac). apply Hes in Hac as (J & b & J1 & J2 & Hlt). cbn [fst snd].
          assert (K1 : edge T (p a) (p c)) by (apply HE; split; [lia|eauto]). assert (K2 : edge T (p a) (p b)) by (apply HE; split; [lia|eauto]).
          assert (K3 : edge T (p b) (p c)) by (apply HE; split; [lia|eauto]). destruct K1 as [Hi K1]. split; [exact Hi|].
          apply elem_of_list_fmap in K1 as ([k v] & E & K1). cbn [fst] in E. subst k. apply elem_of_list_fmap. exists (p c, v). split; [reflexivity|]. apply Q5; [exact Hi|].
          split; [exact K1|]. exists (p b). split; [apply K2|apply K3].
        + intros [Hi Hin]. apply elem_of_list_fmap in Hin as ([j' v] & -> & Hin). cbn [fst]. apply Q5 in Hin as (K1 & k & K2 & K3); [|exact Hi].
          assert (E1' : edge T i j') by (split; [exact Hi|apply elem_of_list_fmap; exists (j', v); auto]). assert (E2' : edge T i k) by (split; auto).
          assert (E3' : edge T k j') by (split; [apply HE in E2' as (_ & a & b & J & _ & ->); rewrite HrT; apply Hp; apply (joined_range A n a b Hw Hr Hc J)|exact K3]).
          apply HE in E1' as (L1 & a & c & J1 & -> & ->). apply HE in E2' as (L2 & a2 & b & J2 & Ea & ->). apply HE in E3' as (L3 & b3 & c3 & J3 & Eb & Ec).
          destruct (joined_range A n _ _ Hw Hr Hc J1), (joined_range A n _ _ Hw Hr Hc J2), (joined_range A n _ _ Hw Hr Hc J3). destruct Hp as [_ Hp2].
          apply Hp2 in Ea; [|assumption..]. apply Hp2 in Eb; [|assumption..]. apply Hp2 in Ec; [|assumption..]. subst a2 b3 c3.
          exists (a, c). split; [reflexivity|]. apply Hes. split; [exact J1|]. exists b. auto. }
    rewrite <- E2, fmap_length. reflexivity.
Qed.
Print Assumptions C54_hash_count.

(** The complete graph on four vertices, stored on one side. *)
Definition exK4 : csc Z := mkCsc 4 4 6 [0;3;5;6;6] [1;2;3;2;3;3] [1;1;1;1;1;1]%Z.
Lemma exK4_wf : wf_csc exK4.
Proof.
  constructor; try reflexivity.
  - intros i a b Ha Hb. do 5 (destruct i as [|i]; [cbn in Ha, Hb; try (injection Ha as <-); try (injection Hb as <-; lia); discriminate|]). discriminate.
  - intros q c Hq. do 6 (destruct q as [|q]; [cbn in Hq; injection Hq as <-; cbn; lia|]). discriminate.
Qed.
Lemma exK4_joined a b : joined exK4 a b <-> a < 4 /\ b < 4 /\ a <> b.
Proof.
  assert (Hr : forall a b, a ∈ fst <$> col_entries exK4 b <-> b < a < 4).
  { clear a b. intros a b. destruct (decide (b < 4)) as [Hb|Hb].
    - destruct b as [|[|[|[|b]]]]; [change (fst <$> col_entries exK4 0) with [1;2;3]|change (fst <$> col_entries exK4 1) with [2;3]
        |change (fst <$> col_entries exK4 2) with [3]|change (fst <$> col_entries exK4 3) with (@nil nat)|lia]; rewrite ?elem_of_cons, elem_of_nil; lia.
    - split; [|lia]. intros Hin. apply elem_of_list_fmap in Hin as ([r v] & _ & Hin). apply col_range in Hin; [cbn in Hin; lia|exact exK4_wf]. }
  unfold joined. rewrite !Hr. lia.
Qed.
(** Finding: on the complete graph on four vertices, which has four triangles, main prints 3 for HashIntersect. *)
Theorem C54_hash_k4_refuted :
  forall (ltV : Z -> Z -> Prop) sortP sortT stdsort stdsort', std_sort sortP -> std_sort sortT -> sort_contract ltV stdsort -> sort_contract (fun _ _ => False) stdsort' ->
  forall w W top nts nt, 1 <= nt -> 64 + nt <= W ->
  triangles exK4 [(0, 1, 2); (0, 1, 3); (0, 2, 3); (1, 2, 3)] /\
  exists L T C, preprocessInput_ends 0%Z 1%Z sortP sortT stdsort exK4 L /\ csrOfCsc 0%Z L = Ok T /\
    hashIntersect_ends 0%Z stdsort' mul64 add64 w W top nts nt T T T C /\
    forall r, sumall_result 0%Z (stepInt 64) (plusInt 64) (values C) (nnz C) r <-> r = 3%Z.
Proof.
  intros ltV sortP sortT stdsort stdsort' HsP HsT Hss Hss' w W top nts nt Hnt HW. split.
  { change [(0, 1, 2); (0, 1, 3); (0, 2, 3); (1, 2, 3)] with ([(0, 1, 2)] ++ [(0, 1, 3); (0, 2, 3); (1, 2, 3)]). split.
    - refine (bool_decide_unpack _ _). vm_compute. exact I.
    - intros a b c. rewrite !exK4_joined. cbn [app]. rewrite !elem_of_cons, elem_of_nil. split.
      + intros [[= -> -> ->]|[[= -> -> ->]|[[= -> -> ->]|[[= -> -> ->]|[]]]]]; lia.
      + intros H. assert (E : (a = 0 /\ b = 1 /\ c = 2) \/ (a = 0 /\ b = 1 /\ c = 3) \/ (a = 0 /\ b = 2 /\ c = 3) \/ (a = 1 /\ b = 2 /\ c = 3)) by lia.
        destruct E as [(-> & -> & ->)|[(-> & -> & ->)|[(-> & -> & ->)|(-> & -> & ->)]]]; auto. }
  destruct (C54_hash_count ltV sortP sortT stdsort stdsort' HsP HsT Hss Hss' exK4 4 exK4_wf eq_refl eq_refl) with (w := w) (W := W) (top := top) (nts := nts) (nt := nt)
    as (L & T & p & H1 & H2 & Hp & [C HC] & Hall); [exists 0, 1; apply exK4_joined; lia|exact Hnt|reflexivity|lia|lia|lia|].
  exists L, T, C. do 3 (split; [assumption|]). intros r.
  assert (Hinv : exists q, forall i, i < 4 -> q i < 4 /\ p (q i) = i /\ q (p i) = i).
  { destruct Hp as [Hp1 Hp2]. exists (fun i => if p 0 =? i then 0 else if p 1 =? i then 1 else if p 2 =? i then 2 else 3). intros i Hi.
    pose proof (Hp1 0 ltac:(lia)). pose proof (Hp1 1 ltac:(lia)). pose proof (Hp1 2 ltac:(lia)). pose proof (Hp1 3 ltac:(lia)).
    pose proof (Hp2 0 1 ltac:(lia) ltac:(lia)). pose proof (Hp2 0 2 ltac:(lia) ltac:(lia)). pose proof (Hp2 0 3 ltac:(lia) ltac:(lia)).
    pose proof (Hp2 1 2 ltac:(lia) ltac:(lia)). pose proof (Hp2 1 3 ltac:(lia) ltac:(lia)). pose proof (Hp2 2 3 ltac:(lia) ltac:(lia)).
    split; [|split].
    - destruct (p 0 =? i), (p 1 =? i), (p 2 =? i); lia.
    - destruct (Nat.eqb_spec (p 0) i); [assumption|]. destruct (Nat.eqb_spec (p 1) i); [assumption|]. destruct (Nat.eqb_spec (p 2) i); [assumption|]. lia.
    - do 4 (destruct i as [|i]; [repeat (match goal with |- context [?a =? ?b] => destruct (Nat.eqb_spec a b); try lia end)|]). lia. }
  destruct Hinv as (q & Hq). rewrite (Hall C HC [(q 2, q 0); (q 3, q 1); (q 3, q 0)]); [reflexivity| |].
  - pose proof (Hq 0 ltac:(lia)) as Q0. pose proof (Hq 1 ltac:(lia)) as Q1. pose proof (Hq 2 ltac:(lia)) as Q2. pose proof (Hq 3 ltac:(lia)) as Q3.
    assert (q 2 <> q 3) by (intros E; rewrite E in Q2; lia). assert (q 1 <> q 0) by (intros E; rewrite E in Q1; lia).
    repeat constructor; rewrite ?elem_of_cons, ?elem_of_nil; intros Hin; repeat destruct Hin as [Hin|Hin]; try congruence; injection Hin; intros; congruence.
  - intros a c. rewrite exK4_joined, !elem_of_cons, elem_of_nil. split.
    + pose proof (Hq 0 ltac:(lia)) as Q0. pose proof (Hq 1 ltac:(lia)) as Q1. pose proof (Hq 2 ltac:(lia)) as Q2. pose proof (Hq 3 ltac:(lia)) as Q3.
      assert (D : forall i j, i < 4 -> j < 4 -> i <> j -> q i <> q j) by (intros i j Hi Hj Hne E; apply Hne; rewrite <- (proj1 (proj2 (Hq i Hi))), <- (proj1 (proj2 (Hq j Hj))), E; reflexivity).
      intros [[= -> ->]|[[= -> ->]|[[= -> ->]|[]]]].
      * split; [split; [apply Q2|split; [apply Q0|apply D; lia]]|]. exists (q 1). rewrite !exK4_joined. split; [split; [apply Q2|split; [apply Q1|apply D; lia]]|].
        split; [split; [apply Q1|split; [apply Q0|apply D; lia]]|]. destruct Q0 as (_ & -> & _), Q1 as (_ & -> & _), Q2 as (_ & -> & _). lia.
      * split; [split; [apply Q3|split; [apply Q1|apply D; lia]]|]. exists (q 2). rewrite !exK4_joined. split; [split; [apply Q3|split; [apply Q2|apply D; lia]]|].
        split; [split; [apply Q2|split; [apply Q1|apply D; lia]]|]. destruct Q1 as (_ & -> & _), Q2 as (_ & -> & _), Q3 as (_ & -> & _). lia.
      * split; [split; [apply Q3|split; [apply Q0|apply D; lia]]|]. exists (q 2). rewrite !exK4_joined. split; [split; [apply Q3|split; [apply Q2|apply D; lia]]|].
        split; [split; [apply Q2|split; [apply Q0|apply D; lia]]|]. destruct Q0 as (_ & -> & _), Q2 as (_ & -> & _), Q3 as (_ & -> & _). lia.
    + intros ((Ha & Hc & Hne) & b & J1 & J2 & Hlt). apply exK4_joined in J1 as (_ & Hb & _). destruct (Hq a Ha) as (_ & _ & Ea), (Hq c Hc) as (_ & _ & Ec).
      rewrite <- Ea, <- Ec. pose proof (proj1 Hp a Ha). pose proof (proj1 Hp b Hb). pose proof (proj1 Hp c Hc).
      assert (E : (p a = 2 /\ p c = 0) \/ (p a = 3 /\ p c = 1) \/ (p a = 3 /\ p c = 0)) by lia. clear -E. destruct E as [[-> ->]|[[-> ->]|[-> ->]]]; auto.
Qed.
Print Assumptions C54_hash_k4_refuted.
