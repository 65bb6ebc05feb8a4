(** The row algorithms of the repository meet the contract of the drivers. *)
From Coq Require Import NArith ZArith.
From stdpp Require Import sorting.
From Verif Require Import Base KernelBase MemModel MemProofs BaseProofs ComplProofs MsaModel MsaProofs MsaComplProofs MsaStatements
  McaModel McaProofs HashModel HashTableProofs HashProofs HashStatements HeapModel HeapProofs HeapStatements
  WorkProofs DriverModel DriverProofs AlgModel.
From Verif Require Import Spec.

Lemma maxOver_cases f rb re : maxOver f rb re = 0 \/ exists i, rb <= i < re /\ maxOver f rb re = f i.
Proof.
  unfold maxOver.
  assert (H : foldr Nat.max 0 (f <$> seq rb (re - rb)) = 0 \/ exists i, i ∈ seq rb (re - rb) /\ foldr Nat.max 0 (f <$> seq rb (re - rb)) = f i).
  { induction (seq rb (re - rb)) as [|x l IH]; [left; reflexivity|]. rewrite fmap_cons. cbn [foldr].
    destruct (Nat.max_spec (f x) (foldr Nat.max 0 (f <$> l))) as [[Hlt ->]|[Hge ->]].
    - destruct IH as [->|(i & Hi & ->)]; [lia|]. right. exists i. split; [right; exact Hi|reflexivity].
    - right. exists x. split; [left|reflexivity]. }
  destruct H as [H|(i & Hi & H)]; [left; exact H|]. right. exists i. split; [apply elem_of_seq in Hi; lia|exact H].
Qed.
Lemma maxOver_le f rb re n mx : re <= n -> (forall i, i < n -> f i <= mx) -> maxOver f rb re <= mx.
Proof. intros Hre Hf. destruct (maxOver_cases f rb re) as [->|(i & Hi & ->)]; [lia|]. apply Hf. lia. Qed.

Lemma choose_rows {T} n (P : nat -> T -> Prop) (d : T) : (forall i, i < n -> exists l, P i l) -> exists f, forall i, i < n -> P i (f i).
Proof.
  induction n as [|n IH]; intros H; [exists (fun _ => d); intros i Hi; lia|].
  destruct IH as [f Hf]; [intros i Hi; apply H; lia|]. destruct (H n) as [l Hl]; [lia|].
  exists (fun i => if decide (i = n) then l else f i). intros i Hi. destruct (decide (i = n)) as [->|Hne]; [exact Hl|]. apply Hf. lia.
Qed.

Section Facts.
Context {V : Type} (mul add : V -> V -> V) (A B M : csr V).
Hypothesis HC : compatible A B M.

Lemma touched_length i : length (touched_cols A B i) = nprods A B i.
Proof. rewrite <- row_prods_cols, nprods_row_prods. apply fmap_length. Qed.

Lemma plain_length_touched i : NoDup (row_cols M i) -> length (spec_row mul add A B M i) <= nprods A B i.
Proof.
  intros Hnd. rewrite <- (fmap_length fst), spec_row_keys, <- touched_length.
  apply submseteq_length, NoDup_submseteq; [apply NoDup_filter, Hnd|].
  intros x Hx. apply elem_of_list_filter in Hx as [Hx _]. exact Hx.
Qed.
Lemma plain_length_mask i : length (spec_row mul add A B M i) <= length (row_cols M i).
Proof. rewrite <- (fmap_length fst), spec_row_keys. apply filter_length. Qed.
Lemma plain_len i : NoDup (row_cols M i) -> length (spec_row mul add A B M i) <= nprodsM A B M i.
Proof.
  intros Hnd. unfold nprodsM. pose proof (plain_length_mask i). pose proof (plain_length_touched i Hnd).
  destruct (row_cols M i); simpl in *; lia.
Qed.
Lemma plain_zero i : nprodsM A B M i = 0 -> spec_row mul add A B M i = [].
Proof.
  unfold nprodsM. intros H. pose proof (plain_length_mask i) as Hm.
  destruct (row_cols M i) eqn:E; [destruct (spec_row mul add A B M i); simpl in *; [reflexivity|lia]|].
  rewrite <- touched_length in H. apply length_zero_iff_nil in H.
  pose proof (spec_row_keys mul add A B M i) as Hk. rewrite H in Hk.
  destruct (spec_row mul add A B M i) as [|[j v] l0]; [reflexivity|]. exfalso.
  assert (Hj : j ∈ fst <$> (j, v) :: l0) by (rewrite fmap_cons; left).
  rewrite Hk in Hj. apply elem_of_list_filter in Hj as [Hj _]. inversion Hj.
Qed.
Lemma plain_cols i c v : i < rows A -> (c, v) ∈ spec_row mul add A B M i -> c < cols B.
Proof.
  intros Hi Hin. apply (elem_of_list_fmap_1 fst) in Hin. rewrite spec_row_keys in Hin. apply elem_of_list_filter in Hin as [_ Hin].
  cbn in Hin. rewrite <- (co_cols _ _ _ HC). eapply row_cols_range; [apply HC|exact Hin].
Qed.

Lemma ft_length i : length (first_touch (touched_cols A B i)) <= nprods A B i.
Proof.
  rewrite <- touched_length. apply submseteq_length, NoDup_submseteq; [apply NoDup_first_touch|].
  intros x Hx. rewrite elem_of_first_touch in Hx. exact Hx.
Qed.
Lemma compl_len i : length (compl_cols A B M i) <= nprods A B i.
Proof. pose proof (ft_length i). unfold compl_cols. etransitivity; [apply filter_length|]. exact H. Qed.
Lemma compl_range i c : i < rows A -> c ∈ compl_cols A B M i -> c < cols B.
Proof.
  intros Hi Hin. apply compl_cols_elem in Hin as [_ Hin]. apply elem_of_list_fmap in Hin as ([[c' a] b] & -> & Hin).
  cbn. eapply row_prods_range; [|exact Hin]; apply HC.
Qed.
Lemma mask_ne i : nprodsM A B M i <> 0 -> row_cols M i <> [].
Proof. unfold nprodsM. intros H E. rewrite E in H. contradiction. Qed.
End Facts.

Lemma zcount_of_nat {T} (a : T) n : zcount (a, Z.of_nat n) = Ok (a, n).
Proof. unfold zcount. cbn [fst snd]. destruct (Z.ltb_spec (Z.of_nat n) 0); [lia|]. rewrite Nat2Z.id. reflexivity. Qed.

Lemma lcm_1_l s : (N.lcm 1 s = s)%N.
Proof. apply N.divide_antisym; [apply N.lcm_least; [apply N.divide_1_l|reflexivity]|apply N.divide_lcm_r]. Qed.

Lemma lcm_pos a b : (0 < a -> 0 < b -> 0 < N.lcm a b)%N.
Proof. intros Ha Hb. apply N.neq_0_lt_0. intros H. apply N.lcm_eq_0 in H. lia. Qed.
Lemma bound_al (n sz b : N) : ((n + 1) * sz + 8 < b -> 0 < sz -> 0 < sz /\ sz + 8 < b)%N.
Proof. intros H1 H2. split; [exact H2|]. enough (sz <= (n + 1) * sz)%N by lia. rewrite <- (N.mul_1_l sz) at 1. apply N.mul_le_mono_r. lia. Qed.
Lemma bound_cap (k m : nat) (sz b : N) : k <= m -> ((N.of_nat m + 1) * sz + 8 < b)%N -> (N.of_nat k * sz + sz < b)%N.
Proof.
  intros H1 H2. enough (N.of_nat k * sz + sz <= (N.of_nat m + 1) * sz)%N by lia.
  rewrite N.mul_add_distr_r, N.mul_1_l. apply N.add_le_mono_r, N.mul_le_mono_r. lia.
Qed.
Lemma bound_hash (cap m : nat) (s b : N) : cap <= 8 * (m + 2) -> ((8 * (N.of_nat m + 2) + 1) * s < b)%N -> (N.of_nat cap * s + s < b)%N.
Proof.
  intros H1 H2. eapply N.le_lt_trans; [|exact H2]. rewrite (N.mul_add_distr_r _ 1 s), N.mul_1_l. apply N.add_le_mono_r, N.mul_le_mono_r. lia.
Qed.

Section Algs.
Context {V : Type} (mul add : V -> V -> V) (A B M : csr V).
Hypothesis HC : compatible A B M.

(** ** MSA *)
Lemma msa_clean_pristine n : msa_pristine n (msa_clean_sym (V := V) n).
Proof.
  unfold msa_clean_sym. split; [cbn; apply repeat_length|]. split; cbn.
  - intros i s Hs. apply elem_of_list_lookup_2, elem_of_list_In, repeat_spec in Hs. exact Hs.
  - intros i s Hs. apply elem_of_list_lookup_2, elem_of_list_In in Hs. 
    first [apply repeat_spec in Hs; exact Hs | destruct Hs].
Qed.

Lemma msa_run two sz alg : (0 < sz)%N -> ((N.of_nat (cols B) + 1) * (sz + 1) + 8 < 2 ^ 64)%N ->
  forall (sp : params), pIdx sp = cols B ->
  (0 < snd (msaReq two sz (cols B)) /\ snd (msaReq two sz (cols B)) + 8 < SZ)%N /\
  (alg = true -> True) /\
  (forall b, MemProofs.fresh (msaReq two sz (cols B)) b -> msaNset (V := V) two sz (cols B) b = Ok (msa_clean (cols B))) /\
  (forall b, MemProofs.fresh (msaReq two sz (cols B)) b -> exists b' off,
     msaSset (V := V) two sz (cols B) b = Ok (mkPlaced (msa_clean_sym (cols B)) b' off) /\
     msaNset (V := V) two sz (cols B) (msaSrel two sz (mkPlaced (msa_clean_sym (V := V) (cols B)) b' off)) = Ok (msa_clean (cols B))).
Proof.
  intros Hs Hsz sp _. change (2 ^ 64)%N with SZ in Hsz.
  unfold msaReq, msaNset, msaSset, msaSrel. destruct two.
  - split; [|split; [auto|split]].
    + unfold both_req, msa2_req. cbn [fst snd]. rewrite !lcm_1_l. nia.
    + intros b Hb. destruct (msa2_fresh_num (V := V) sz (cols B) b Hs ltac:(nia) Hb) as (b' & off & ->). reflexivity.
    + intros b Hb. destruct (msa2_handover (V := V) sz (cols B) b Hs ltac:(nia) Hb) as (b' & off & -> & H).
      exists b', off. split; [reflexivity|]. destruct (H _ (msa_clean_pristine _)) as (b'' & off' & ->). reflexivity.
  - split; [|split; [auto|split]].
    + unfold both_req, msa1_req. cbn [fst snd]. rewrite !lcm_1_l. nia.
    + intros b Hb. destruct (msa1_fresh_num (V := V) sz (cols B) b Hs ltac:(nia) Hb) as (b' & off & ->). reflexivity.
    + intros b Hb. destruct (msa1_handover (V := V) sz (cols B) b Hs ltac:(nia) Hb) as (b' & off & -> & H).
      exists b', off. split; [reflexivity|]. destruct (H _ (msa_clean_pristine _)) as (b'' & off' & ->). reflexivity.
Qed.

Lemma msaAlg_ok two sz : (0 < sz)%N -> ((N.of_nat (cols B) + 1) * (sz + 1) + 8 < 2 ^ 64)%N -> distinct_rows M ->
  ra_ok (msaAlg mul add two sz) A B M (spec_row mul add A B M).
Proof.
  intros Hs Hsz Hnd.
  assert (Hd : forall i, i < rows A -> NoDup (row_cols M i)) by (intros i Hi; apply Hnd; rewrite (co_rows _ _ _ HC); exact Hi).
  destruct (msa_run two sz true Hs Hsz (mkParams (cols B) 0 0 0) eq_refl) as (Hal & _ & Hns & Hss).
  constructor.
  - intros i Hi. cbn. apply plain_zero.
  - intros i Hi. unfold boundOf, flopsOf. cbn. pose proof (plain_len mul add A B M i (Hd i Hi)).
    pose proof (plain_length_mask mul add A B M i). rewrite <- row_cols_length. lia.
  - intros i c v. apply plain_cols, HC.
  - intros rb re Hr. cbn. destruct (msaReq two sz (cols B)) as [s al] eqn:E. exists s, al. split; [reflexivity|]. split; [exact Hal|].
    exists (fun a => a = msa_clean (cols B)). split; [|split].
    + intros row f a dn cap Hrow Hf _ -> Hcap. eexists. split; [|reflexivity]. cbn. apply st_msa_numeric; [exact HC|lia|apply Hd; lia|exact Hcap].
    + intros b Hb. eexists. split; [apply Hns, Hb|reflexivity].
    + intros b Hb. destruct (Hss b Hb) as (b' & off & H1 & H2).
      exists (fun p => p = mkPlaced (msa_clean_sym (cols B)) b' off). eexists. split; [exact H1|]. split; [reflexivity|]. split.
      * intros row s' Hrow Hf ->. eexists. split; [|reflexivity]. cbn. unfold onPlaced. cbn [p_acc p_buf p_off].
        rewrite (st_msa_symbolic mul add); [reflexivity|exact HC|lia|apply Hd; lia].
      * intros s' ->. eexists. split; [exact H2|reflexivity].
Qed.

Lemma msaAlgC_ok two sorted sz : (0 < sz)%N -> ((N.of_nat (cols B) + 1) * (sz + 1) + 8 < 2 ^ 64)%N -> distinct_rows M ->
  ra_ok (msaAlgC mul add two sorted sz) A B M (crow mul add sorted A B M).
Proof.
  intros Hs Hsz Hnd.
  assert (Hd : forall i, i < rows A -> NoDup (row_cols M i)) by (intros i Hi; apply Hnd; rewrite (co_rows _ _ _ HC); exact Hi).
  destruct (msa_run two sz true Hs Hsz (mkParams (cols B) 0 0 0) eq_refl) as (Hal & _ & Hns & Hss).
  constructor.
  - intros i Hi Hf. cbn in Hf. pose proof (compl_len A B M i). apply length_zero_iff_nil. rewrite crow_length. lia.
  - intros i Hi. unfold boundOf, flopsOf. cbn. rewrite crow_length. apply compl_len.
  - intros i c v Hi Hin. apply (compl_range A B M HC i c Hi). apply (elem_of_list_fmap_1 fst) in Hin. rewrite crow_keys in Hin.
    destruct sorted; [rewrite merge_sort_Permutation in Hin|]; exact Hin.
  - intros rb re Hr. cbn. destruct (msaReq two sz (cols B)) as [s al] eqn:E. exists s, al. split; [reflexivity|]. split; [exact Hal|].
    exists (fun a => a = msa_clean (cols B)). split; [|split].
    + intros row f a dn cap Hrow Hf _ -> Hcap. rewrite crow_length in Hcap. eexists. split; [|reflexivity]. cbn.
      destruct HC. apply msaNumericRowC_correct; auto; try lia. apply Hd; lia.
    + intros b Hb. eexists. split; [apply Hns, Hb|reflexivity].
    + intros b Hb. destruct (Hss b Hb) as (b' & off & H1 & H2).
      exists (fun p => p = mkPlaced (msa_clean_sym (cols B)) b' off). eexists. split; [exact H1|]. split; [reflexivity|]. split.
      * intros row s' Hrow Hf ->. eexists. split; [|reflexivity]. cbn. unfold onPlaced. cbn [p_acc p_buf p_off].
        rewrite st_msa_symbolic_C by (auto; lia). cbn [bind]. rewrite zcount_of_nat, crow_length. reflexivity.
      * intros s' ->. eexists. split; [exact H2|reflexivity].
Qed.

(** ** MCA *)
Lemma mcaAlg_ok sz mx : (0 < sz)%N -> ((N.of_nat mx + 1) * sz + 8 < 2 ^ 64)%N ->
  sorted_rows B -> sorted_rows M -> (forall i, i < rows A -> length (row_cols M i) <= mx) ->
  ra_ok (mcaAlg mul add sz) A B M (spec_row mul add A B M).
Proof.
  intros Hs Hsz HsB HsM Hmx. change (2 ^ 64)%N with SZ in Hsz.
  assert (HM : forall i, i < rows A -> StronglySorted lt (row_cols M i)) by (intros i Hi; apply HsM; rewrite (co_rows _ _ _ HC); exact Hi).
  assert (Hd : forall i, i < rows A -> NoDup (row_cols M i)) by (intros i Hi; apply SSorted_NoDup, HM, Hi).
  constructor.
  - intros i Hi. cbn. apply plain_zero.
  - intros i Hi. unfold boundOf, flopsOf. cbn. pose proof (plain_len mul add A B M i (Hd i Hi)).
    pose proof (plain_length_mask mul add A B M i). rewrite <- row_cols_length. lia.
  - intros i c v. apply plain_cols, HC.
  - intros rb re Hr. cbn. set (n := maxOver _ rb re).
    assert (Hn : n <= mx) by (apply maxOver_le with (n := rows A); [lia|]; intros i Hi; rewrite <- row_cols_length; apply Hmx, Hi).
    assert (Hrow : forall row, rb <= row < re -> length (row_cols M row) <= n).
    { intros row Hrow. rewrite row_cols_length. apply (maxOver_ge (fun i => length (row_entries M i)) rb re row Hrow). }
    assert (Hb1 : (N.of_nat n * sz + sz < SZ)%N) by exact (bound_cap _ _ _ _ Hn Hsz).
    exists (N.max (fst (mca_req 1 n)) (fst (mca_req sz n))), (N.lcm 1 sz). split; [reflexivity|]. split; [rewrite lcm_1_l; exact (bound_al _ _ _ Hsz Hs)|].
    exists (fun a => a = mca_clean n). split; [|split].
    + intros row f a dn cap Hrw Hf _ -> Hcap. eexists. split; [|reflexivity]. cbn.
      apply mcaNumericRow_correct; auto; [lia|apply HM; lia|]. apply (mask_ne A B M row Hf).
    + intros b Hb. destruct (mca_fresh_num (V := V) sz n b Hs Hb1 Hb) as (b' & off & ->). eexists. split; reflexivity.
    + intros b Hb. destruct (mca_handover (V := V) sz n b Hs Hb1 Hb) as (b' & off & -> & b'' & off' & H2).
      exists (fun p => p = mkPlaced (mca_clean n) b' off). eexists. split; [reflexivity|]. split; [reflexivity|]. split.
      * intros row s' Hrw Hf ->. eexists. split; [|reflexivity]. cbn. unfold onPlaced. cbn [p_acc p_buf p_off].
        rewrite (mcaSymbolicRow_correct mul add); [reflexivity|auto|lia|auto|apply HM; lia|apply (mask_ne A B M row Hf)|auto].
      * intros s' ->. cbv beta. unfold mca_clean. rewrite H2. eexists. split; reflexivity.
Qed.

(** ** Hash *)
Lemma adjust_cap w n mx : fits w mx -> n <= mx -> exists cap, adjustSize w n = Ok cap /\ 0 < cap /\ cap <= 8 * (mx + 2) /\ fits w n.
Proof.
  intros [Hw Hf] Hn. assert (Hfn : fits w n) by (split; [exact Hw|]; lia).
  destruct (adjustSize_all w n Hfn) as (k & -> & H16 & _ & Hor & _). exists (2 ^ k). split; [reflexivity|]. split; [lia|]. split; [lia|exact Hfn].
Qed.

Lemma hash_set_ok0 cap s : s <= cap -> hash_ok (V := V) (mkHash (repeat (mkHent None None None) cap) s s []).
Proof.
  intros Hs. destruct (hash_fresh_ok (V := V) cap) as [[H1 H2] H3 H4]. split; [split; [reflexivity|exact H2]|cbn; rewrite repeat_length; exact Hs|].
  intros i _ Hi. apply H4; [cbn; lia|exact Hi].
Qed.

Lemma hashAlg_ok w sK sN mx : (0 < sK)%N -> (0 < sN)%N -> fits w mx ->
  ((8 * (N.of_nat mx + 2) + 1) * N.max sK sN < 2 ^ 64)%N -> (N.lcm sK sN + 8 < 2 ^ 64)%N ->
  distinct_rows M -> (forall i, i < rows A -> length (row_cols M i) <= mx) ->
  ra_ok (hashAlg mul add w sK sN) A B M (spec_row mul add A B M).
Proof.
  intros HK Hs Hfit Hsz Hal Hnd Hmx. change (2 ^ 64)%N with SZ in Hsz, Hal.
  assert (Hd : forall i, i < rows A -> NoDup (row_cols M i)) by (intros i Hi; apply Hnd; rewrite (co_rows _ _ _ HC); exact Hi).
  constructor.
  - intros i Hi. cbn. apply plain_zero.
  - intros i Hi. unfold boundOf, flopsOf. cbn. pose proof (plain_len mul add A B M i (Hd i Hi)).
    pose proof (plain_length_mask mul add A B M i). rewrite <- row_cols_length. lia.
  - intros i c v. apply plain_cols, HC.
  - intros rb re Hr. cbn. set (n := maxOver _ rb re).
    assert (Hn : n <= mx) by (apply maxOver_le with (n := rows A); [lia|]; intros i Hi; rewrite <- row_cols_length; apply Hmx, Hi).
    assert (Hrow : forall row, rb <= row < re -> length (row_cols M row) <= n).
    { intros row Hrow. rewrite row_cols_length. apply (maxOver_ge (fun i => length (row_entries M i)) rb re row Hrow). }
    destruct (adjust_cap w n mx Hfit Hn) as (cap & Hadj & Hcap0 & Hcap & Hfn). rewrite Hadj. cbn [bind].
    assert (Hb1 : (N.of_nat cap * N.max sK sN + N.max sK sN < SZ)%N) by exact (bound_hash _ _ _ _ Hcap Hsz).
    eexists _, _. split; [reflexivity|]. split. { split; [|exact Hal]. apply lcm_pos; assumption. }
    exists (fun a => hash_ok a /\ length (h_tab a) = cap). split; [|split].
    + intros row f a dn c Hrw Hf _ [Ha Hl] Hroom. cbn.
      destruct (st_hash_numeric w mul add A B M row a dn c n) as (a' & H1 & H2 & H3); auto; [lia|apply Hd; lia|congruence|].
      exists a'. split; [exact H1|]. split; [exact H2|congruence].
    + intros b Hb. destruct (hash_fresh_num (V := V) sK sN cap 0 0 b HK Hs Hb1 Hb) as (b' & off & ->). eexists. split; [reflexivity|].
      split; [apply hash_set_ok0; lia|apply repeat_length].
    + intros b Hb. destruct (hash_handover (V := V) sK sN cap 0 0 0 0 b HK Hs Hcap0 Hb1 Hb) as (b' & off & -> & H2).
      exists (fun p => hash_ok (p_acc p) /\ length (h_tab (p_acc p)) = cap /\ p_buf p = b' /\ p_off p = off). eexists. split; [reflexivity|].
      split; [cbn [p_acc p_buf p_off]; split; [apply hash_set_ok0; lia|split; [apply repeat_length|auto]]|]. split.
      * intros row s' Hrw Hf (Ha & Hl & Hpb & Hpo). cbn. unfold onPlaced.
        destruct (hashSymbolicRow_correct w mul add A B M row (p_acc s') n) as (a' & H1 & H3 & H4); auto; [lia|apply Hd; lia|congruence|].
        rewrite H1. cbn [bind]. eexists. split; [reflexivity|]. cbn [p_acc p_buf p_off]. repeat split; auto; try apply H3. congruence.
      * intros [a pb po] (Ha & Hl & Hpb & Hpo). cbn [p_acc p_buf p_off] in *. subst pb po.
        destruct (H2 a Ha Hl) as (b'' & off' & ->). eexists. split; [reflexivity|]. split; [apply hash_set_ok0; lia|apply repeat_length].
Qed.

Lemma hashAlgC_ok w sK sN sorted mx fx : (0 < sK)%N -> (0 < sN)%N -> fits w (mx + fx) ->
  ((8 * (N.of_nat (mx + fx) + 2) + 1) * N.max sK sN < 2 ^ 64)%N -> (N.lcm sK sN + 8 < 2 ^ 64)%N ->
  distinct_rows M -> (forall i, i < rows A -> length (row_cols M i) <= mx) ->
  (forall i, i < rows A -> nprods A B i <= fx) ->
  ra_ok (hashAlgC mul add w sK sN sorted) A B M (crow mul add sorted A B M).
Proof.
  intros HK Hs Hfit Hsz Hal Hnd Hmx Hfx. change (2 ^ 64)%N with SZ in Hsz, Hal.
  assert (Hd : forall i, i < rows A -> NoDup (row_cols M i)) by (intros i Hi; apply Hnd; rewrite (co_rows _ _ _ HC); exact Hi).
  constructor.
  - intros i Hi Hf. cbn in Hf. pose proof (compl_len A B M i). apply length_zero_iff_nil. rewrite crow_length. lia.
  - intros i Hi. unfold boundOf, flopsOf. cbn. rewrite crow_length. apply compl_len.
  - intros i c v Hi Hin. apply (compl_range A B M HC i c Hi). apply (elem_of_list_fmap_1 fst) in Hin. rewrite crow_keys in Hin.
    destruct sorted; [rewrite merge_sort_Permutation in Hin|]; exact Hin.
  - intros rb re Hr. unfold paramsOf. cbn [ra_calcA ra_calcM ra_calcF hashAlgC ra_req ra_nset ra_sset ra_srel].
    set (n := maxOver (fun i => length (row_entries M i)) rb re). set (q := maxOver (flopsOf _ _ _ _) rb re).
    assert (Hn : n <= mx) by (apply maxOver_le with (n := rows A); [lia|]; intros i Hi; rewrite <- row_cols_length; apply Hmx, Hi).
    assert (Hq : q <= fx) by (apply maxOver_le with (n := rows A); [lia|]; intros i Hi; unfold flopsOf; cbn; apply Hfx, Hi).
    assert (Hrow : forall row, rb <= row < re -> length (row_cols M row) <= n).
    { intros row Hrow. rewrite row_cols_length. apply (maxOver_ge (fun i => length (row_entries M i)) rb re row Hrow). }
    assert (Hrowq : forall row, rb <= row < re -> nprods A B row <= q).
    { intros row Hrw. apply (maxOver_ge (flopsOf (hashAlgC mul add w sK sN sorted) A B M) rb re row Hrw). }
    destruct (adjust_cap w (n + q) (mx + fx) Hfit ltac:(lia)) as (cap & Hadj & Hcap0 & Hcap & Hfn).
    destruct (adjust_cap w q (mx + fx) Hfit ltac:(lia)) as (cq & Hadjq & _).
    assert (Hcq : cq <= cap) by (eapply (adjustSize_mono w q (n + q)); eauto; lia).
    unfold hashCtorC. cbn [pM pF]. rewrite Hadj, Hadjq. cbn [bind].
    rewrite (proj2 (Nat.leb_le cq cap) Hcq). cbn [assert_ bind].
    assert (Hb1 : (N.of_nat cap * N.max sK sN + N.max sK sN < SZ)%N) by exact (bound_hash _ _ _ _ Hcap Hsz).
    eexists _, _. split; [reflexivity|]. split. { split; [|exact Hal]. apply lcm_pos; assumption. }
    exists (fun a => hash_ok a /\ length (h_tab a) = cap). split; [|split].
    + intros row f a dn c Hrw Hf Hna [Ha Hl] Hroom. cbn. rewrite crow_length in Hroom.
      assert (Hfl : length (compl_cols A B M row) <= f <= q).
      { pose proof (compl_len A B M row) as H1. pose proof (Hrowq row Hrw) as H2. destruct Hna as [->|[-> _]]; [unfold flopsOf; cbn; lia|].
        rewrite crow_length. lia. }
      pose proof (Hrow row Hrw) as HrM.
      destruct (hashNumericRowC_correct w mul add sorted A B M row f a (mkOut dn c) (n + q)) as (a' & H1 & H2 & H3); auto; try lia; [congruence|].
      exists a'. split; [exact H1|]. split; [exact H2|congruence].
    + intros b Hb. destruct (hash_fresh_num (V := V) sK sN cap cq cq b HK Hs Hb1 Hb) as (b' & off & ->). eexists. split; [reflexivity|].
      split; [apply hash_set_ok0; lia|apply repeat_length].
    + intros b Hb. destruct (hash_handover (V := V) sK sN cap cq cq cq cq b HK Hs Hcap0 Hb1 Hb) as (b' & off & -> & H2).
      exists (fun p => hash_ok (p_acc p) /\ length (h_tab (p_acc p)) = cap /\ p_buf p = b' /\ p_off p = off). eexists. split; [reflexivity|].
      split; [cbn [p_acc p_buf p_off]; split; [apply hash_set_ok0; lia|split; [apply repeat_length|auto]]|]. split.
      * intros row s' Hrw Hf (Ha & Hl & Hpb & Hpo). cbn. unfold onPlaced, flopsOf. cbn.
        pose proof (Hrow row Hrw) as HrM. pose proof (Hrowq row Hrw) as Hrq.
        destruct (hashSymbolicRowC_correct w mul add A B M row (nprods A B row) (p_acc s') (n + q)) as (a' & H1 & H3 & H4); auto;
          [lia|apply Hd; lia|congruence|apply ft_length|lia|].
        rewrite H1. cbn [bind]. rewrite zcount_of_nat, crow_length. eexists. split; [reflexivity|]. cbn [p_acc p_buf p_off].
        split; [exact H3|]. split; [congruence|]. auto.
      * intros [a pb po] (Ha & Hl & Hpb & Hpo). cbn [p_acc p_buf p_off] in *. subst pb po.
        destruct (H2 a Ha Hl) as (b'' & off' & ->). eexists. split; [reflexivity|]. split; [apply hash_set_ok0; lia|apply repeat_length].
Qed.

(** ** Heap *)
Lemma heap_rel_set sz cap h b : (0 < sz)%N -> (N.of_nat cap * sz + sz < SZ)%N -> MemProofs.fresh (heap_req sz cap) b -> hmax h <= cap ->
  exists b', heap_set sz cap 0 (heap_rel sz (mkPlaced h b 0%N)) = Ok (mkPlaced (mkHeap [] cap 0) b' 0%N).
Proof.
  intros Hs Hn Hf Hm. destruct (heap_handover sz cap h b Hs Hn Hf Hm) as [b' H]. exists b'.
  unfold heap_set in *. destruct (assert_ _); [|discriminate]. cbn [bind] in *. destruct (assert_ _); [|discriminate]. cbn [bind] in *.
  inversion H. reflexivity.
Qed.

(** What a row of the heap algorithms is: same columns as specified, and each value is the sum of the
    products of its column in some order. *)
Definition heap_row (l spec : list (nat * V)) (row : nat) : Prop :=
  fst <$> l = fst <$> spec /\ forall j v, (j, v) ∈ l -> sum_in_some_order mul add A B row j v.

Lemma heapAlg_ok itmax insp sz mx : (0 < sz)%N -> ((N.of_nat mx + 1) * sz + 8 < 2 ^ 64)%N ->
  sorted_rows B -> sorted_rows M -> cols B <= itmax -> insp_ok insp (nnz M) ->
  (forall i, i < rows A -> length (row_cols A i) <= mx) ->
  exists rspec, ra_ok (heapAlg mul add itmax insp sz) A B M rspec /\
    forall i, i < rows A -> heap_row (rspec i) (spec_row mul add A B M i) i.
Proof.
  intros Hs Hsz HsB HsM Hit Hins Hmx. change (2 ^ 64)%N with SZ in Hsz.
  assert (HM : forall i, i < rows A -> StronglySorted lt (row_cols M i)) by (intros i Hi; apply HsM; rewrite (co_rows _ _ _ HC); exact Hi).
  assert (Hd : forall i, i < rows A -> NoDup (row_cols M i)) by (intros i Hi; apply SSorted_NoDup, HM, Hi).
  destruct (choose_rows (rows A) (fun i l => heap_row l (spec_row mul add A B M i) i /\ (nprodsM A B M i <> 0 ->
    forall h dn cap, hp h = [] -> length (row_entries A i) <= hcap h -> length dn + length (spec_row mul add A B M i) <= cap ->
      exists h', heapNumericRow mul add itmax insp A B M i h (mkOut dn cap) = Ok (h', mkOut (dn ++ l) cap) /\ emptied h h')) []) as [rspec Hsp].
  { intros i Hi. destruct (Nat.eq_dec (nprodsM A B M i) 0) as [E|E].
    - exists []. split; [|contradiction]. split; [rewrite (plain_zero mul add A B M i E); reflexivity|]. intros j v H. inversion H.
    - destruct (heapNumericRow_correct mul add itmax insp A B M i HC Hi HsB (HM i Hi) (mask_ne A B M i E) Hit Hins) as (l & H1 & H2 & H3).
      exists l. split; [split; assumption|]. intros _. exact H3. }
  assert (Hlen : forall i, i < rows A -> length (rspec i) = length (spec_row mul add A B M i)).
  { intros i Hi. destruct (Hsp i Hi) as [[H _] _]. rewrite <- (fmap_length fst), H. apply fmap_length. }
  exists rspec. split; [|intros i Hi; apply (Hsp i Hi)].
  constructor.
  - intros i Hi Hf. cbn in Hf. apply length_zero_iff_nil. rewrite (Hlen i Hi), (plain_zero mul add A B M i Hf). reflexivity.
  - intros i Hi. unfold boundOf, flopsOf. cbn. pose proof (plain_len mul add A B M i (Hd i Hi)).
    pose proof (plain_length_mask mul add A B M i). rewrite <- row_cols_length, (Hlen i Hi). lia.
  - intros i c v Hi Hin. apply (elem_of_list_fmap_1 fst) in Hin. destruct (Hsp i Hi) as [[H _] _]. rewrite H in Hin.
    apply elem_of_list_fmap in Hin as ([c' v'] & Hc & Hin). cbn in Hc. subst c'. eapply plain_cols; eauto.
  - intros rb re Hr. cbn. set (n := maxOver _ rb re).
    assert (Hn : n <= mx) by (apply maxOver_le with (n := rows A); [lia|]; intros i Hi; rewrite <- row_cols_length; apply Hmx, Hi).
    assert (Hrow : forall row, rb <= row < re -> length (row_entries A row) <= n).
    { intros row Hrow. apply (maxOver_ge (fun i => length (row_entries A i)) rb re row Hrow). }
    assert (Hb1 : (N.of_nat n * sz + sz < SZ)%N) by exact (bound_cap _ _ _ _ Hn Hsz).
    exists (wmul (N.of_nat n) sz), sz. split; [reflexivity|]. split; [exact (bound_al _ _ _ Hsz Hs)|].
    exists (fun h => hp h = [] /\ hcap h = n). split; [|split].
    + intros row f h dn c Hrw Hf _ [Hh Hc] Hroom. cbn. destruct (Hsp row ltac:(lia)) as [_ Hrun]. rewrite (Hlen row) in Hroom by lia.
      destruct (Hrun Hf h dn c Hh ltac:(rewrite Hc; apply Hrow, Hrw) Hroom) as (h' & H1 & H2 & H3 & _).
      exists h'. split; [exact H1|]. split; [exact H2|congruence].
    + intros b Hb. rewrite (heap_fresh sz n 0 b Hs Hb1 Hb). eexists. split; [reflexivity|]. auto.
    + intros b Hb. rewrite (heap_fresh sz n 0 b Hs Hb1 Hb).
      exists (fun p => hp (p_acc p) = [] /\ hcap (p_acc p) = n /\ hmax (p_acc p) <= n /\ p_buf p = b /\ p_off p = 0%N). eexists. split; [reflexivity|].
      split; [cbn; repeat split; lia|]. split.
      * intros row s' Hrw Hf (Hh & Hc & Hm & Hpb & Hpo). cbn. unfold onPlaced.
        destruct (heapSymbolicRow_correct mul add itmax insp A B M row HC ltac:(lia) HsB (HM row ltac:(lia)) (mask_ne A B M row Hf) Hit Hins
          (p_acc s') Hh ltac:(rewrite Hc; apply Hrow, Hrw)) as (h' & H1 & H2 & H3 & H4).
        rewrite H1. cbn [bind]. rewrite (Hlen row) by lia. eexists. split; [reflexivity|]. cbn [p_acc p_buf p_off]. repeat split; auto; [congruence|lia].
      * intros [h pb po] (Hh & Hc & Hm & Hpb & Hpo). cbn [p_acc p_buf p_off] in *. subst pb po.
        destruct (heap_rel_set sz n h b Hs Hb1 Hb Hm) as [b' ->]. eexists. split; [reflexivity|]. auto.
Qed.

(** Row of the complemented heap algorithm. *)
Definition heap_row_C (l : list (nat * V)) (row : nat) : Prop :=
  StronglySorted lt (fst <$> l) /\ (forall j, j ∈ fst <$> l <-> j ∈ compl_cols A B M row) /\
  forall j v, (j, v) ∈ l -> sum_in_some_order mul add A B row j v.

Lemma heapAlgC_ok itmax sz mx : (0 < sz)%N -> ((N.of_nat mx + 1) * sz + 8 < 2 ^ 64)%N ->
  sorted_rows B -> sorted_rows M -> cols B <= itmax ->
  (forall i, i < rows A -> nprods A B i <> 0 -> row_cols M i <> []) ->
  (forall i, i < rows A -> length (row_cols A i) <= mx) ->
  exists rspec, ra_ok (heapAlgC mul add itmax sz) A B M rspec /\ forall i, i < rows A -> heap_row_C (rspec i) i.
Proof.
  intros Hs Hsz HsB HsM Hit Hmne Hmx. change (2 ^ 64)%N with SZ in Hsz.
  assert (HM : forall i, i < rows A -> StronglySorted lt (row_cols M i)) by (intros i Hi; apply HsM; rewrite (co_rows _ _ _ HC); exact Hi).
  destruct (choose_rows (rows A) (fun i l => heap_row_C l i /\ (nprods A B i <> 0 ->
    forall h dn cap, hp h = [] -> length (row_entries A i) <= hcap h -> length dn + length (compl_cols A B M i) <= cap ->
      exists h', heapNumericRowC mul add itmax A B M i h (mkOut dn cap) = Ok (h', mkOut (dn ++ l) cap) /\ emptied h h')) []) as [rspec Hsp].
  { intros i Hi. destruct (Nat.eq_dec (nprods A B i) 0) as [E|E].
    - exists []. split; [|contradiction]. pose proof (compl_len A B M i) as Hl. rewrite E in Hl.
      assert (Hnil : compl_cols A B M i = []) by (apply length_zero_iff_nil; lia).
      split; [constructor|]. rewrite Hnil. split; [reflexivity|]. intros j v H. inversion H.
    - destruct (heapNumericRowC_correct mul add itmax A B M i HC Hi HsB (HM i Hi) (Hmne i Hi E) Hit) as (l & H1 & H2 & H3 & H4).
      exists l. split; [repeat split; try assumption; apply H2|]. intros _. exact H4. }
  assert (Hlen : forall i, i < rows A -> length (rspec i) = length (compl_cols A B M i)).
  { intros i Hi. destruct (Hsp i Hi) as [(H1 & H2 & _) _]. rewrite <- (fmap_length fst).
    apply Permutation_length, NoDup_Permutation; [apply SSorted_NoDup, H1|apply compl_cols_NoDup|exact H2]. }
  exists rspec. split; [|intros i Hi; apply (Hsp i Hi)].
  constructor.
  - intros i Hi Hf. cbn in Hf. pose proof (compl_len A B M i). apply length_zero_iff_nil. rewrite (Hlen i Hi). lia.
  - intros i Hi. unfold boundOf, flopsOf. cbn. rewrite (Hlen i Hi). apply compl_len.
  - intros i c v Hi Hin. apply (elem_of_list_fmap_1 fst) in Hin. destruct (Hsp i Hi) as [(_ & H & _) _]. apply H in Hin.
    eapply compl_range; eauto.
  - intros rb re Hr. cbn. set (n := maxOver _ rb re).
    assert (Hn : n <= mx) by (apply maxOver_le with (n := rows A); [lia|]; intros i Hi; rewrite <- row_cols_length; apply Hmx, Hi).
    assert (Hrow : forall row, rb <= row < re -> length (row_entries A row) <= n).
    { intros row Hrow. apply (maxOver_ge (fun i => length (row_entries A i)) rb re row Hrow). }
    assert (Hb1 : (N.of_nat n * sz + sz < SZ)%N) by exact (bound_cap _ _ _ _ Hn Hsz).
    exists (wmul (N.of_nat n) sz), sz. split; [reflexivity|]. split; [exact (bound_al _ _ _ Hsz Hs)|].
    exists (fun h => hp h = [] /\ hcap h = n). split; [|split].
    + intros row f h dn c Hrw Hf _ [Hh Hc] Hroom. cbn. destruct (Hsp row ltac:(lia)) as [_ Hrun]. rewrite (Hlen row) in Hroom by lia.
      destruct (Hrun Hf h dn c Hh ltac:(rewrite Hc; apply Hrow, Hrw) Hroom) as (h' & H1 & H2 & H3 & _).
      exists h'. split; [exact H1|]. split; [exact H2|congruence].
    + intros b Hb. rewrite (heap_fresh sz n 0 b Hs Hb1 Hb). eexists. split; [reflexivity|]. auto.
    + intros b Hb. rewrite (heap_fresh sz n 0 b Hs Hb1 Hb).
      exists (fun p => hp (p_acc p) = [] /\ hcap (p_acc p) = n /\ hmax (p_acc p) <= n /\ p_buf p = b /\ p_off p = 0%N). eexists. split; [reflexivity|].
      split; [cbn; repeat split; lia|]. split.
      * intros row s' Hrw Hf (Hh & Hc & Hm & Hpb & Hpo). cbn. unfold onPlaced.
        destruct (heapSymbolicRowC_correct mul add itmax A B M row HC ltac:(lia) HsB (HM row ltac:(lia)) (Hmne row ltac:(lia) Hf) Hit
          (p_acc s') Hh ltac:(rewrite Hc; apply Hrow, Hrw)) as (h' & H1 & H2 & H3 & H4).
        rewrite H1. cbn [bind]. rewrite (Hlen row) by lia. eexists. split; [reflexivity|]. cbn [p_acc p_buf p_off]. repeat split; auto; [congruence|lia].
      * intros [h pb po] (Hh & Hc & Hm & Hpb & Hpo). cbn [p_acc p_buf p_off] in *. subst pb po.
        destruct (heap_rel_set sz n h b Hs Hb1 Hb Hm) as [b' ->]. eexists. split; [reflexivity|]. auto.
Qed.
End Algs.
