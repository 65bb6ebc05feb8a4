(** C68: counting triangles block by block (sample/blocked_parallel_tc.cpp).  Words used: [blockedTc_ends] (BlockModel: the run
    with a gridx by gridy grid, this directory and these files ends with these totals); [file_block], [squareOf],
    [boff], [bsize], [through], [positions] (BlockSpec); [spec_row] (Spec); [mult_pairs] (PropReport). *)
From stdpp Require Import numbers list_numbers sorting.
From Coq Require Import ZArith.
From Verif Require Import BlockModel IoModel MatModel IndexModel ReportModel HashHwModel IsectModel SpaModel NohashModel MaskHashModel GraphModel GraphSpec.
From Verif Require Import KernelBase BaseProofs ConcProofs McaProofs WorkProofs AlgProofs GraphProofs TriProofs BlockProofs BlockCalls.
From Verif Require Import PropReport PropIo PropMat PropNohash BlockSpec.
From Verif Require Import Base Spec.
Local Open Scope list_scope.

(** For all i and j below [length ns] there is a file of the name splitmatrix_(i+1)_(j+1).mtx with block (i, j) of A. *)
Definition split_files (A : csr Z) (ns : list nat) (dir : list ascii) (fs : list ascii -> option (list ascii)) : Prop :=
  forall i j, i < length ns -> j < length ns ->
  exists f t, fs (dir ++ txt "/splitmatrix_" ++ showNat (i + 1) ++ txt "_" ++ showNat (j + 1) ++ txt ".mtx") = Some t /\ file_text f t /\ file_block A ns i j f.
(** Every part has rows, but fewer than 2^17 - 1; the columns within a block in which A has entries are columns of every other block. *)
Definition parts_ok (A : csr Z) (ns : list nat) : Prop :=
  (forall i, i < length ns -> bsize ns i <> 0 /\ (N.of_nat (bsize ns i + 1) < 2 ^ 17)%N) /\
  forall i k j r c, i < length ns -> k < length ns -> j < length ns -> r < bsize ns i -> c < bsize ns k ->
    boff ns k + c ∈ row_cols A (boff ns i + r) -> c < bsize ns j.

Lemma blockName_eq dir i j : blockName dir i j = dir ++ txt "/splitmatrix_" ++ showNat (i + 1) ++ txt "_" ++ showNat (j + 1) ++ txt ".mtx".
Proof. unfold blockName. rewrite <- app_assoc. reflexivity. Qed.

Lemma block_nnz A ns S_ i j : squareOf A ns -> (forall i j, i < length ns -> j < length ns -> is_block A ns i j (S_ i j)) -> i < length ns -> j < length ns -> nnz (S_ i j) <= nnz A.
Proof.
  intros HA HS Hi Hj. pose proof (HS i j Hi Hj) as B. rewrite (nnz_nsum _ (bl_wf _ _ _ _ _ B)), (bl_rows _ _ _ _ _ B). pose proof HA as (Hw & _ & Hr & _).
  rewrite (nnz_nsum A Hw), Hr, <- boff_all, seq_blocks. unfold nsum. rewrite nsum_mjoin. etransitivity; [|apply (nsum_in (seq 0 (length ns)) _ i); apply elem_of_seq; lia].
  cbv beta. rewrite msum_fmap. apply nsum_le. intros r Hr'. apply elem_of_seq in Hr'. rewrite (row_cols_blocks A ns S_ HA HS i r Hi ltac:(lia)), length_mjoin_nsum.
  etransitivity; [|apply (nsum_in (seq 0 (length ns)) _ j); apply elem_of_seq; lia]. cbv beta. rewrite fmap_length. reflexivity.
Qed.
Lemma bsize_le ns i : i < length ns -> bsize ns i <= sum_list ns.
Proof. intros Hi. rewrite <- boff_all. pose proof (boff_mono ns (S i) (length ns) Hi) as H. rewrite boff_S in H. lia. Qed.

(** The blocks the files give. *)
Lemma blocks_exist stdsort A ns dir fs : sort_contract Z.lt stdsort -> split_files A ns dir fs ->
  exists (mc : nat -> nat -> csc Z) (m : nat -> nat -> csr Z), forall i j, i < length ns -> j < length ns ->
    (forall Xc X, readBlock_ends stdsort (fs (blockName dir i j)) Xc X <-> Xc = mc i j /\ X = m i j) /\
    is_block A ns i j (m i j) /\ wf_csc (mc i j) /\ same_matrix (m i j) (mc i j) /\ sorted_cols (mc i j).
Proof.
  intros Hsort Hf.
  set (P := fun i j (x : csc Z * csr Z) => (forall Xc X, readBlock_ends stdsort (fs (blockName dir i j)) Xc X <-> Xc = fst x /\ X = snd x) /\
    is_block A ns i j (snd x) /\ wf_csc (fst x) /\ same_matrix (snd x) (fst x) /\ sorted_cols (fst x)).
  set (d := (mkCsc 0 0 0 [] [] [], mkCsr 0 0 0 [] [] []) : csc Z * csr Z).
  destruct (choose_rows (length ns) (fun i f => forall j, j < length ns -> P i j (f j)) (fun _ => d)) as [F HF].
  { intros i Hi. apply (choose_rows (length ns) (P i) d). intros j Hj. destruct (Hf i j Hi Hj) as (f & t & Hfs & Hft & Hb). rewrite <- blockName_eq in Hfs.
    destruct (read_block stdsort A ns i j f t Hsort Hft Hb) as (Xc & X & H1 & H2 & H3 & H4 & H5). exists (Xc, X). unfold P. rewrite Hfs. cbn [fst snd]. auto. }
  exists (fun i j => fst (F i j)), (fun i j => snd (F i j)). intros i j Hi Hj. apply (HF i Hi j Hj).
Qed.

(** C68.  The run ends, always with the same totals: the number of operations of A * A; the sum of the entries of
    the masked product A .* (A * A), modulo 2^64; and for every part of the middle index the number of positions of A
    (of any positions) between which there is a path through that part. *)
Theorem C68_blocks_partial :
  forall w W top nts stdsort A ns dir fs, sort_contract Z.lt stdsort -> squareOf A ns -> parts_ok A ns -> split_files A ns dir fs ->
  2 * nnz A * sum_list ns + sum_list ns + 16 <= W ->
  let n := sum_list ns in
  let through_part l := sum_list ((fun k => length (filter (fun x => through A (boff ns k) (bsize ns k) x = true) l)) <$> seq 0 (length ns)) in
  exists T, (forall T', blockedTc_ends w W top nts stdsort (length ns) (length ns) dir fs T' <-> T' = T) /\
    totalflops T = 2 * mult_pairs (triples A) (triples A) /\
    totaltriangles T = (foldr Z.add 0 (snd <$> mjoin (spec_row Z.mul Z.add A A A <$> seq 0 n)) mod 2 ^ 64)%Z /\
    totalmaskednnz T = through_part (positions A) /\ totalmaskedinnernnz T = through_part (positions A) /\
    totalnnzs T = through_part (list_prod (seq 0 n) (seq 0 n)).
Proof.
  intros w W top nts stdsort A ns dir fs Hsort HA [Hp1 Hp2] Hf HW n tp. set (g := length ns) in *.
  destruct (blocks_exist stdsort A ns dir fs Hsort Hf) as (mc & m & Hm). fold g in Hm.
  assert (HS : forall i j, i < g -> j < g -> is_block A ns i j (m i j)) by (intros i j Hi Hj; apply (Hm i j Hi Hj)).
  set (out := fun i j k => cell (m i k) (m k j) (m i j)).
  assert (Hco : forall i j k, i < g -> j < g -> k < g -> compatible (m i k) (m k j) (m i j)).
  { intros i j k Hi Hj Hk. pose proof (HS i k Hi Hk) as B1. pose proof (HS k j Hk Hj) as B2. pose proof (HS i j Hi Hj) as B3.
    constructor; [apply B1|apply B2|apply B3|rewrite (bl_cols _ _ _ _ _ B1), (bl_rows _ _ _ _ _ B2); reflexivity|rewrite (bl_rows _ _ _ _ _ B3), (bl_rows _ _ _ _ _ B1); reflexivity|
      rewrite (bl_cols _ _ _ _ _ B3), (bl_cols _ _ _ _ _ B2); reflexivity]. }
  assert (Hcell : forall i j k, i < g -> j < g -> k < g -> forall o, tcStep_ends w W top nts stdsort (m i k) (m k j) (m i j) (mc k j) o <-> o = out i j k).
  { intros i j k Hi Hj Hk o. pose proof (HS i k Hi Hk) as B1. pose proof (HS k j Hk Hj) as B2. pose proof (HS i j Hi Hj) as B3. destruct (Hm k j Hk Hj) as (_ & _ & M1 & M2 & M3).
    pose proof (block_nnz A ns m i k HA HS Hi Hk) as N1. pose proof (block_nnz A ns m i j HA HS Hi Hj) as N2.
    pose proof (bsize_le ns i Hi) as Z1. pose proof (bsize_le ns k Hk) as Z2. pose proof (bsize_le ns j Hj) as Z3. destruct (Hp1 i Hi) as [P1 P2].
    apply (cell_ends w W top nts stdsort Hsort (m i k) (m k j) (m i j) (mc k j) n (Hco i j k Hi Hj Hk) (bl_sorted _ _ _ _ _ B1) (bl_sorted _ _ _ _ _ B2) (bl_sorted _ _ _ _ _ B3) M1 M2 M3).
    - rewrite (bl_rows _ _ _ _ _ B1). exact P1.
    - rewrite (bl_rows _ _ _ _ _ B1). exact P2.
    - rewrite (bl_rows _ _ _ _ _ B1), (bl_cols _ _ _ _ _ B2). intros r c Hr Hc. apply (block_cols A ns m HS i k r c Hi Hk Hr) in Hc as [Hc1 Hc2]. eapply (Hp2 i k j r c); eauto.
    - rewrite (bl_cols _ _ _ _ _ B2). exact Z3.
    - rewrite (bl_rows _ _ _ _ _ B2). exact Z2.
    - rewrite (bl_rows _ _ _ _ _ B1). fold n in HW, Z1. nia.
    - fold n in HW, Z1. nia. }
  exists (totals g g out). split; [|rewrite totals_eq; cbn [totalflops totalnnzs totalmaskednnz totalmaskedinnernnz totaltriangles]].
  - intros T'. split.
    + intros (_ & mc' & m' & out' & H1 & H2 & ->). rewrite !totals_eq.
      assert (E : forall i j, i < g -> j < g -> mc' i j = mc i j /\ m' i j = m i j) by (intros i j Hi Hj; destruct (Hm i j Hi Hj) as (Q & _); apply Q, H1; assumption).
      assert (E2 : forall i j k, i < g -> j < g -> k < g -> out' i j k = out i j k).
      { intros i j k Hi Hj Hk. apply (Hcell i j k Hi Hj Hk). specialize (H2 i j k Hi Hj Hk). destruct (E i k Hi Hk) as [_ E1]. destruct (E k j Hk Hj) as [E2 E3]. destruct (E i j Hi Hj) as [_ E4].
        rewrite E1, E2, E3, E4 in H2. exact H2. }
      f_equal; [apply cellsSum_ext..|f_equal; apply cellsSum_ext]; intros i j k Hi Hj Hk; rewrite E2 by assumption; reflexivity.
    + intros ->. split; [reflexivity|]. exists mc, m, out. split; [|split; [|reflexivity]].
      * intros i j Hi Hj. apply (Hm i j Hi Hj). auto.
      * intros i j k Hi Hj Hk. apply (Hcell i j k Hi Hj Hk). reflexivity.
  - pose proof HA as (Hw & _ & Hr & Hc). split; [|split; [|split; [|split]]].
    + rewrite (mult_pairs_nprods A A Hw Hw ltac:(congruence)), nsum_list, Hr. pose proof (flops_blocks A ns m HA HS) as E. change (fun R => nprods A A R) with (nprods A A) in E. rewrite E.
      fold g. change (cellsSum Nat.add 0 g (fun i j k => t_flps (out i j k)) = 2 * cellsSum Nat.add 0 g (cellFlops ns m)).
      transitivity (cellsSum Nat.add 0 g (fun i j k => cellFlops ns m i j k * 2)).
      * apply cellsSum_ext. intros i j k Hi Hj Hk. unfold out, cell, cellFlops. cbn [t_flps]. rewrite (bl_rows _ _ _ _ _ (HS i k Hi Hk)), Nat.mul_comm. reflexivity.
      * unfold cellsSum. rewrite Nat.mul_comm, <- (nsum_mul (seq 0 g)). apply nsum_ext. intros i _. rewrite <- (nsum_mul (seq 0 g)). apply nsum_ext. intros j _. apply (nsum_mul (seq 0 g)).
    + pose proof (tri_blocks A ns m HA HS) as E. fold n g in E.
      assert (E1 : foldr Z.add 0%Z (snd <$> mjoin (spec_row Z.mul Z.add A A A <$> seq 0 n)) = zs (seq 0 n) (fun R => zsum (snd <$> spec_row Z.mul Z.add A A A R))).
      { change (zsum (snd <$> mjoin (spec_row Z.mul Z.add A A A <$> seq 0 n)) = zs (seq 0 n) (fun R => zsum (snd <$> spec_row Z.mul Z.add A A A R))).
        clear. induction (seq 0 n) as [|r l IH]; [reflexivity|]. rewrite fmap_cons, mjoin_cons, fmap_app, zsum_app, IH. reflexivity. }
      rewrite E1, E. transitivity (cellsSum Z.add 0 g (fun i j k => cellTri ns m i j k mod 2 ^ 64) mod 2 ^ 64)%Z; [|apply cellsSum_mod]. f_equal.
      apply cellsSum_ext. intros i j k Hi Hj Hk. unfold out, cell, cellTri. cbn [t_tri]. rewrite (bl_rows _ _ _ _ _ (HS i k Hi Hk)). reflexivity.
    + unfold tp. rewrite nsum_list, cellsSum_k. apply nsum_ext. intros k Hk. apply elem_of_seq in Hk. rewrite (masked_blocks A ns m HA HS k) by (unfold g in *; lia). apply nsum_ext. intros i Hi.
      apply nsum_ext. intros j Hj. apply elem_of_seq in Hi, Hj. unfold out, cell, cellMasked. cbn [t_masked]. rewrite (bl_rows _ _ _ _ _ (HS i k ltac:(lia) ltac:(lia))). reflexivity.
    + unfold tp. rewrite nsum_list, cellsSum_k. apply nsum_ext. intros k Hk. apply elem_of_seq in Hk. rewrite (masked_blocks A ns m HA HS k) by (unfold g in *; lia). apply nsum_ext. intros i Hi.
      apply nsum_ext. intros j Hj. apply elem_of_seq in Hi, Hj. unfold out, cell, cellMasked. cbn [t_inner]. rewrite (bl_rows _ _ _ _ _ (HS i k ltac:(lia) ltac:(lia))). reflexivity.
    + unfold tp. rewrite nsum_list, cellsSum_k. apply nsum_ext. intros k Hk. apply elem_of_seq in Hk. etransitivity; [|symmetry; apply (nnz_blocks A ns m HS k); unfold g in *; lia]. apply nsum_ext. intros i Hi.
      apply nsum_ext. intros j Hj. apply elem_of_seq in Hi, Hj. unfold out, cell, cellNnz. cbn [t_nnzs]. rewrite (bl_rows _ _ _ _ _ (HS i k ltac:(lia) ltac:(lia))), (bl_cols _ _ _ _ _ (HS k j ltac:(lia) ltac:(lia))). reflexivity.
Qed.
Print Assumptions C68_blocks_partial.

(** ** The number of triangles *)
(** Vertices x and y are joined in the graph of which A is one half. *)
Definition half_joined (A : csr Z) (x y : nat) : Prop := y ∈ row_cols A x \/ x ∈ row_cols A y.
Lemma products_ones (arow : list (nat * Z)) (brow : nat -> list (nat * Z)) c :
  (forall k a, (k, a) ∈ arow -> a = 1%Z) -> (forall k a, (k, a) ∈ arow -> forall j b, (j, b) ∈ brow k -> b = 1%Z) -> products Z.mul arow brow c = products fOne arow brow c.
Proof.
  intros H1 H2. unfold products. f_equal. apply list_fmap_ext. intros q [k a] Hq. apply elem_of_list_lookup_2 in Hq. pose proof (H1 k a Hq) as ->. apply list_fmap_ext.
  intros q' [j b] Hq'. apply elem_of_list_lookup_2, elem_of_list_filter in Hq' as [_ Hq']. rewrite (H2 k 1%Z Hq j b Hq'). reflexivity.
Qed.
Lemma spec_ones A ns R : squareOf A ns -> (forall R C v, (C, v) ∈ row_entries A R -> v = 1%Z) -> spec_row Z.mul Z.add A A A R = spec_row fOne Z.add A A A R.
Proof.
  intros HA H1. unfold spec_row, masked_row, entry. induction (row_cols A R) as [|c l IH]; [reflexivity|]. cbn [omap list_omap].
  rewrite (products_ones (row_entries A R) (row_entries A) c) by eauto. destruct (sum1 _ _); cbn; [f_equal|]; exact IH.
Qed.
(** A below the diagonal, all values 1: the number printed is the number of triangles. *)
Theorem C68_triangles_partial :
  forall w W top nts stdsort A ns dir fs ts, sort_contract Z.lt stdsort -> squareOf A ns -> parts_ok A ns -> split_files A ns dir fs ->
  2 * nnz A * sum_list ns + sum_list ns + 16 <= W ->
  (forall R C v, (C, v) ∈ row_entries A R -> C < R /\ v = 1%Z) ->
  NoDup ts -> (forall a b c, (a, b, c) ∈ ts <-> a < b /\ b < c /\ half_joined A a b /\ half_joined A b c /\ half_joined A a c) ->
  (Z.of_nat (length ts) < 2 ^ 63)%Z ->
  exists T, (forall T', blockedTc_ends w W top nts stdsort (length ns) (length ns) dir fs T' <-> T' = T) /\ totaltriangles T = Z.of_nat (length ts).
Proof.
  intros w W top nts stdsort A ns dir fs ts Hsort HA Hp Hf HW Hlow Hnd Hts Hlen.
  destruct (C68_blocks_partial w W top nts stdsort A ns dir fs Hsort HA Hp Hf HW) as (T & HT & _ & Htri & _). exists T. split; [exact HT|]. rewrite Htri. clear T HT Htri.
  assert (HG : GraphSpec.good (sum_list ns) A) by exact HA. set (n := sum_list ns) in *.
  assert (E : foldr Z.add 0%Z (snd <$> mjoin (spec_row Z.mul Z.add A A A <$> seq 0 n)) = Z.of_nat (length (tris A))).
  { change (zsum (snd <$> mjoin (spec_row Z.mul Z.add A A A <$> seq 0 n)) = Z.of_nat (length (tris A))). unfold tris. pose proof HA as (_ & _ & Hr & _). rewrite Hr. fold n.
    apply rows_sum. intros i Hi. apply elem_of_seq in Hi. rewrite (spec_ones A ns i HA ltac:(intros; eapply Hlow; eauto)). apply (row_sum n); [exact HG|lia]. }
  rewrite E. assert (El : length (tris A) = length ts).
  { apply Permutation_length, NoDup_Permutation; [apply (tris_nodup n), HG|exact Hnd|]. intros [[a b] c]. rewrite (tris_elem n A a b c HG), Hts.
    assert (Hlt : forall R C, C ∈ row_cols A R -> C < R) by (intros R C H; apply elem_of_list_fmap in H as ([C' v] & -> & H); apply (Hlow _ _ _ H)).
    assert (Hr : forall R C, C ∈ row_cols A R -> R < rows A).
    { intros R C H. destruct (decide (R < rows A)) as [|Hge]; [assumption|]. exfalso. unfold row_cols, row_entries in H. pose proof HA as (Hw & _). pose proof (wf_len A Hw) as Hl.
      rewrite (lookup_ge_None_2 (rowptr A) (R + 1)) in H by lia. destruct (rowptr A !! R); inversion H. }
    unfold edge, half_joined. split.
    - intros ([_ H1] & [_ H2] & [_ H3]). pose proof (Hlt _ _ H2). pose proof (Hlt _ _ H3). auto 10.
    - intros (H1 & H2 & H3 & H4 & H5). destruct H3 as [H3|H3]; [apply Hlt in H3; lia|]. destruct H4 as [H4|H4]; [apply Hlt in H4; lia|]. destruct H5 as [H5|H5]; [apply Hlt in H5; lia|].
      split; [split; [eapply Hr, H5|exact H5]|]. split; [split; [eapply Hr, H4|exact H4]|]. split; [eapply Hr, H3|exact H3]. }
  rewrite El. apply Z.mod_small. lia.
Qed.
Print Assumptions C68_triangles_partial.

(** ** Findings *)
(** "Masked nnz" counts a position once for every part of the middle index through which there is a path: with paths through two parts it
    is more than the number of entries of the masked product. *)
Lemma masked_count A ns : squareOf A ns ->
  length (mjoin (spec_row Z.mul Z.add A A A <$> seq 0 (sum_list ns))) = length (filter (fun x => through A 0 (sum_list ns) x = true) (positions A)).
Proof.
  intros HA. set (n := sum_list ns). assert (HA' : squareOf A [n]) by (pose proof HA as (H1 & H2 & H3 & H4); fold n in H3, H4; split; [exact H1|split; [exact H2|split; simpl; lia]]).
  assert (HS : forall i j, i < length [n] -> j < length [n] -> is_block A [n] i j A).
  { intros i j Hi Hj. cbn in Hi, Hj. replace i with 0 by lia. replace j with 0 by lia. pose proof HA as (H1 & H2 & H3 & H4). constructor; [exact H1|exact H2|exact H3|exact H4|].
    intros r c v Hr. unfold boff, bsize. cbn. split; [|intros [_ H]; exact H]. intros H. split; [|exact H]. fold n in H4. rewrite <- H4. eapply row_entries_range; [exact H1|exact H]. }
  pose proof (masked_blocks A [n] (fun _ _ => A) HA' HS 0 ltac:(cbn; lia)) as E. change (boff [n] 0) with 0 in E. change (bsize [n] 0) with n in E. rewrite E.
  unfold nsum, msum. cbn. rewrite !Nat.add_0_r. rewrite length_mjoin_nsum. unfold cellMasked. change (bsize [n] 0) with n. apply nsum_ext. intros r _. unfold spec_row. rewrite masked_length. reflexivity.
Qed.
Theorem C68_masked_nnz_refuted :
  forall w W top nts stdsort A ns dir fs R C k1 k2 K1 K2, sort_contract Z.lt stdsort -> squareOf A ns -> parts_ok A ns -> split_files A ns dir fs ->
  2 * nnz A * sum_list ns + sum_list ns + 16 <= W -> R < rows A -> C ∈ row_cols A R ->
  k1 < length ns -> k2 < length ns -> k1 <> k2 -> boff ns k1 <= K1 < boff ns k1 + bsize ns k1 -> boff ns k2 <= K2 < boff ns k2 + bsize ns k2 ->
  K1 ∈ row_cols A R -> C ∈ row_cols A K1 -> K2 ∈ row_cols A R -> C ∈ row_cols A K2 ->
  (exists T, blockedTc_ends w W top nts stdsort (length ns) (length ns) dir fs T) /\
  forall T, blockedTc_ends w W top nts stdsort (length ns) (length ns) dir fs T ->
    length (mjoin (spec_row Z.mul Z.add A A A <$> seq 0 (sum_list ns))) < totalmaskednnz T.
Proof.
  intros w W top nts stdsort A ns dir fs R C k1 k2 K1 K2 Hsort HA Hp Hf HW HR HC Hk1 Hk2 Hne HK1 HK2 P1 P2 P3 P4.
  destruct (C68_blocks_partial w W top nts stdsort A ns dir fs Hsort HA Hp Hf HW) as (T & HT & _ & _ & Hm & _). split; [exists T; apply HT; reflexivity|].
  intros T' HT'. apply HT in HT'. subst T'. rewrite Hm, (masked_count A ns HA). clear T HT Hm. rewrite BlockProofs.filter_length, nsum_list.
  assert (E : nsum (seq 0 (length ns)) (fun k => length (filter (fun x => through A (boff ns k) (bsize ns k) x = true) (positions A))) =
    nsum (positions A) (fun x => nsum (seq 0 (length ns)) (fun k => if through A (boff ns k) (bsize ns k) x then 1 else 0))).
  { unfold nsum. rewrite nsum_swap. apply nsum_ext. intros k _. apply BlockProofs.filter_length. }
  rewrite E. clear E.
  assert (Hin : (R, C) ∈ positions A).
  { unfold positions. apply elem_of_list_join. eexists. split; [|apply elem_of_list_fmap; exists R; split; [reflexivity|apply elem_of_seq; lia]]. apply elem_of_list_fmap. exists C. auto. }
  assert (Hle : forall x, (if through A 0 (sum_list ns) x then 1 else 0) <= nsum (seq 0 (length ns)) (fun k => if through A (boff ns k) (bsize ns k) x then 1 else 0)).
  { intros x. destruct (through A 0 _ x) eqn:E; [|lia]. unfold through in E. apply existsb_exists in E as (K & HK & E). apply elem_of_list_In, elem_of_seq in HK.
    destruct (locate ns (length ns) K ltac:(rewrite boff_all; lia)) as (k & y & Hk & Hy & ->).
    etransitivity; [|apply (nsum_in _ _ k); apply elem_of_seq; lia]. cbv beta. assert (Q : through A (boff ns k) (bsize ns k) x = true); [|rewrite Q; reflexivity].
    unfold through. apply existsb_exists. exists (boff ns k + y). split; [apply elem_of_list_In, elem_of_seq; lia|exact E]. }
  assert (Hlt : (if through A 0 (sum_list ns) (R, C) then 1 else 0) < nsum (seq 0 (length ns)) (fun k => if through A (boff ns k) (bsize ns k) (R, C) then 1 else 0)).
  { assert (Q : forall k K, boff ns k <= K < boff ns k + bsize ns k -> K ∈ row_cols A R -> C ∈ row_cols A K -> through A (boff ns k) (bsize ns k) (R, C) = true).
    { intros k K HK H1 H2. unfold through. apply existsb_exists. exists K. split; [apply elem_of_list_In, elem_of_seq; lia|]. cbn [fst snd]. apply andb_true_iff. split; apply bool_decide_eq_true; assumption. }
    pose proof (Q k1 K1 HK1 P1 P2) as Q1. pose proof (Q k2 K2 HK2 P3 P4) as Q2. clear Q.
    assert (G : forall (f : nat -> nat) l, NoDup l -> k1 ∈ l -> k2 ∈ l -> f k1 = 1 -> f k2 = 1 -> 2 <= nsum l f).
    { clear -Hne. intros f l Hl I1 I2 F1 F2. assert (HP : exists l', l ≡ₚ k1 :: k2 :: l').
      { apply elem_of_Permutation in I1 as [l1 E1]. rewrite E1 in I2. apply elem_of_cons in I2 as [E|I2]; [congruence|]. apply elem_of_Permutation in I2 as [l2 E2]. exists l2. rewrite E1, E2. reflexivity. }
      destruct HP as [l' E]. rewrite <- nsum_list. rewrite E, !fmap_cons. cbn [sum_list foldr]. unfold sum_list. simpl. lia. }
    specialize (G (fun k => if through A (boff ns k) (bsize ns k) (R, C) then 1 else 0) (seq 0 (length ns)) ltac:(apply NoDup_seq) ltac:(apply elem_of_seq; lia) ltac:(apply elem_of_seq; lia)).
    cbv beta in G. rewrite Q1, Q2 in G. specialize (G eq_refl eq_refl). destruct (through A 0 _ _); lia. }
  revert Hin. generalize (positions A). intros l Hin. induction Hin as [x l|x y l Hin IH].
  - unfold nsum in *. rewrite !msum_cons. pose proof (nsum_le l _ _ (fun x _ => Hle x)) as Hl. unfold nsum in Hl. lia.
  - unfold nsum in *. rewrite !msum_cons. specialize (Hle y). specialize (IH Hlt). lia.
Qed.
Print Assumptions C68_masked_nnz_refuted.

(** Parts of different sizes: with an entry of A in a column of its block that another block does not have, the run
    has no outcome, because innerSpGEMM_nohash reads colptr beyond its end (C47). *)
Theorem C68_uneven_refuted :
  forall w W top nts stdsort A ns dir fs i j k r c, sort_contract Z.lt stdsort -> split_files A ns dir fs ->
  i < length ns -> j < length ns -> k < length ns -> r < bsize ns i -> c < bsize ns k -> boff ns k + c ∈ row_cols A (boff ns i + r) -> bsize ns j <= c ->
  ~ exists T, blockedTc_ends w W top nts stdsort (length ns) (length ns) dir fs T.
Proof.
  intros w W top nts stdsort A ns dir fs i j k r c Hsort Hf Hi Hj Hk Hr Hc Hin Hle (T & _ & mc' & m' & out & H1 & H2 & _).
  destruct (blocks_exist stdsort A ns dir fs Hsort Hf) as (mc & m & Hm). specialize (H2 i j k Hi Hj Hk). destruct H2 as (C & S & U & C1 & C2 & C3 & _ & _ & _ & _ & _ & _ & _ & _ & H & _).
  destruct (Hm i k Hi Hk) as (Q1 & B1 & _). destruct (Hm k j Hk Hj) as (Q2 & B2 & M1 & M2 & _). destruct (Q1 (mc' i k) (m' i k)) as [E1 _]. destruct (E1 (H1 i k Hi Hk)) as [_ F1].
  destruct (Q2 (mc' k j) (m' k j)) as [E2 _]. destruct (E2 (H1 k j Hk Hj)) as [F2 _]. rewrite F1, F2 in H.
  destruct (C47_tall_refuted Z 0%Z 0%Z Z.mul Z.add W top nts 1 8 (m i k) (m' i j) (mc k j) 0 r c (bl_wf _ _ _ _ _ B1) M1) as [_ HX]; [rewrite (bl_rows _ _ _ _ _ B1); exact Hr| | |apply HX; eexists; exact H].
  - apply elem_of_list_fmap in Hin as ([c' v] & E & Hin). cbn in E. subst c'. apply elem_of_list_fmap. exists (c, v). split; [reflexivity|]. apply (bl_el _ _ _ _ _ B1); auto.
  - rewrite <- (sm_cols _ _ M2), (bl_cols _ _ _ _ _ B2). exact Hle.
Qed.
Print Assumptions C68_uneven_refuted.
(** A part without rows, or a grid that is not square: no outcome. *)
Theorem C68_empty_part_refuted :
  forall w W top nts stdsort A ns dir fs i, sort_contract Z.lt stdsort -> split_files A ns dir fs -> i < length ns -> bsize ns i = 0 ->
  ~ exists T, blockedTc_ends w W top nts stdsort (length ns) (length ns) dir fs T.
Proof.
  intros w W top nts stdsort A ns dir fs i Hsort Hf Hi H0 (T & _ & mc' & m' & out & H1 & H2 & _).
  destruct (blocks_exist stdsort A ns dir fs Hsort Hf) as (mc & m & Hm). specialize (H2 i i i Hi Hi Hi). destruct H2 as (C & S & U & C1 & C2 & C3 & _ & _ & _ & _ & _ & _ & _ & _ & H & _).
  destruct (Hm i i Hi Hi) as (Q1 & B1 & _). destruct (Q1 (mc' i i) (m' i i)) as [E1 _]. destruct (E1 (H1 i i Hi Hi)) as [_ E]. rewrite E in H.
  revert H. intros H. eapply (C47_zero_rows_refuted Z 0%Z 0%Z Z.mul Z.add W top nts 1 8 (m i i)); [rewrite (bl_rows _ _ _ _ _ B1); exact H0|eexists; exact H].
Qed.
Print Assumptions C68_empty_part_refuted.
Theorem C68_grid_refuted : forall w W top nts stdsort gridx gridy dir fs, gridx <> gridy -> ~ exists T, blockedTc_ends w W top nts stdsort gridx gridy dir fs T.
Proof. intros w W top nts stdsort gridx gridy dir fs H (T & E & _). contradiction. Qed.
Print Assumptions C68_grid_refuted.

(** ** Examples: the lower half of the complete graph on four vertices, in four blocks; the parts 1 + 2 of a path. *)
Definition exK4 : csr Z := mkCsr 4 4 6 [0;0;1;3;6] [0;0;1;0;1;2] [1;1;1;1;1;1]%Z.
Definition exBlk (i j : nat) : mmfile :=
  mkMM Pattern SymNo [] 2 2 (match i, j with 0, 0 | 1, 1 => [(2, 1, 1%Z, [])] | 1, 0 => [(1, 1, 1%Z, []); (2, 1, 1%Z, []); (1, 2, 1%Z, []); (2, 2, 1%Z, [])] | _, _ => [] end).
Definition exFs (s : list ascii) : option (list ascii) :=
  if bool_decide (s = txt "d/splitmatrix_1_1.mtx") then Some (render (exBlk 0 0)) else if bool_decide (s = txt "d/splitmatrix_1_2.mtx") then Some (render (exBlk 0 1)) else
  if bool_decide (s = txt "d/splitmatrix_2_1.mtx") then Some (render (exBlk 1 0)) else if bool_decide (s = txt "d/splitmatrix_2_2.mtx") then Some (render (exBlk 1 1)) else None.
Lemma exBlk_wf i j : i < 2 -> j < 2 -> mm_wf (exBlk i j).
Proof.
  intros Hi Hj. assert (Hi' : i = 0 \/ i = 1) by lia. assert (Hj' : j = 0 \/ j = 1) by lia. clear Hi Hj.
  unfold mm_wf. split; [constructor|]. split; [|split; [vm_compute; discriminate|split; [vm_compute; discriminate|split]]].
  - apply Forall_forall. intros l Hl. apply Nat.leb_le. revert l Hl. rewrite <- Forall_forall. destruct Hi' as [-> | ->], Hj' as [-> | ->];
    cbn [exBlk mm_entries mm_field fmap list_fmap]; repeat (apply Forall_cons; split; [vm_compute; reflexivity|]); apply Forall_nil; exact I.
  - destruct Hi' as [-> | ->], Hj' as [-> | ->]; vm_compute; discriminate.
  - destruct Hi' as [-> | ->], Hj' as [-> | ->]; cbn [exBlk mm_entries mm_rows mm_cols];
    repeat (apply Forall_cons; split; [split; [lia|split; [lia|split; [vm_compute; discriminate|left; reflexivity]]]|]); apply Forall_nil; exact I.
Qed.
Lemma exK4_square : squareOf exK4 [2; 2].
Proof.
  split; [|split; [|split; reflexivity]].
  - constructor; try reflexivity.
    + intros i a b. do 4 (destruct i as [|i]; [intros E1 E2; injection E1 as <-; injection E2 as <-; lia|]). destruct i; discriminate.
    + intros p c. do 6 (destruct p as [|p]; [intros E; injection E as <-; cbn; lia|]). discriminate.
  - intros i Hi. cbn in Hi. do 4 (destruct i as [|i]; [cbn; repeat constructor|]). lia.
Qed.
Lemma exBlk_means i j r c v : i < 2 -> j < 2 ->
  (r, c, v) ∈ means (exBlk i j) <-> r < 2 /\ c < 2 /\ (boff [2; 2] j + c, v) ∈ row_entries exK4 (boff [2; 2] i + r).
Proof.
  intros Hi Hj. assert (Hi' : i = 0 \/ i = 1) by lia. assert (Hj' : j = 0 \/ j = 1) by lia. clear Hi Hj.
  destruct Hi' as [-> | ->], Hj' as [-> | ->]; cbn [means exBlk mm_entries fmap list_fmap mjoin list_join entry_means value_of mm_field mm_symm app Nat.sub]; unfold boff; cbn [take]; cbn [sum_list Nat.add]; unfold sum_list; cbn [Nat.add];
  (split; [intros H; repeat (apply elem_of_cons in H as [H|H]; [injection H as -> -> ->; split; [lia|split; [lia|cbn; repeat (left || right)]]|]); inversion H
          |intros (Hr & Hc & H); destruct r as [|[|r]]; [| |lia]; (destruct c as [|[|c]]; [| |lia]); cbn in H;
           repeat (apply elem_of_cons in H as [H|H]; [first [discriminate H|injection H as ->; repeat (left || right)]|]); inversion H]).
Qed.
Lemma exK4_files : split_files exK4 [2; 2] (txt "d") exFs.
Proof.
  intros i j Hi Hj. cbn in Hi, Hj. exists (exBlk i j), (render (exBlk i j)). split; [|split; [left; exists []; symmetry; apply app_nil_r|]].
  - assert (Hi' : i = 0 \/ i = 1) by lia. assert (Hj' : j = 0 \/ j = 1) by lia. destruct Hi' as [-> | ->], Hj' as [-> | ->]; vm_compute; reflexivity.
  - split; [apply exBlk_wf; lia|]. split; [discriminate|]. split; [discriminate|]. assert (Hi' : i = 0 \/ i = 1) by lia. assert (Hj' : j = 0 \/ j = 1) by lia.
    split; [destruct Hi' as [-> | ->], Hj' as [-> | ->]; repeat constructor|].
    split; [destruct Hi' as [-> | ->]; reflexivity|]. split; [destruct Hj' as [-> | ->]; reflexivity|].
    split; [destruct Hi' as [-> | ->], Hj' as [-> | ->]; eapply bool_decide_unpack; vm_compute; exact I|].
    intros r c v. rewrite exBlk_means by lia. destruct Hi' as [-> | ->], Hj' as [-> | ->]; reflexivity.
Qed.
Lemma exK4_parts : parts_ok exK4 [2; 2].
Proof.
  split.
  - intros i Hi. cbn in Hi. do 2 (destruct i as [|i]; [split; [discriminate|reflexivity]|]). lia.
  - intros i k j r c Hi Hk Hj _ Hc _. cbn in Hk, Hj. do 2 (destruct k as [|k]; [do 2 (destruct j as [|j]; [exact Hc|]); lia|]). lia.
Qed.
Example C68_example : sort_contract Z.lt (merge_sort zle) /\ squareOf exK4 [2; 2] /\ parts_ok exK4 [2; 2] /\ split_files exK4 [2; 2] (txt "d") exFs /\
  exists T, (forall T', blockedTc_ends 64 1000 255 1 (merge_sort zle) 2 2 (txt "d") exFs T' <-> T' = T) /\ T = mkTotals 8 4 4 4 4%Z.
Proof.
  split; [exact merge_sort_contract|]. split; [exact exK4_square|]. split; [exact exK4_parts|]. split; [exact exK4_files|].
  destruct (C68_blocks_partial 64 1000 255 1 (merge_sort zle) exK4 [2; 2] (txt "d") exFs merge_sort_contract exK4_square exK4_parts exK4_files ltac:(apply Nat.leb_le; reflexivity))
    as (T & HT & E1 & E2 & E3 & E4 & E5).
  exists T. split; [exact HT|]. destruct T as [a b c d e]. cbn [totalflops totalnnzs totalmaskednnz totalmaskedinnernnz totaltriangles] in E1, E2, E3, E4, E5. f_equal; [rewrite E1|rewrite E5|rewrite E3|rewrite E4|rewrite E2]; vm_compute; reflexivity.
Qed.
Example C68_triangles_example : exists T, blockedTc_ends 64 1000 255 1 (merge_sort zle) 2 2 (txt "d") exFs T /\ totaltriangles T = 4%Z.
Proof.
  destruct (C68_triangles_partial 64 1000 255 1 (merge_sort zle) exK4 [2; 2] (txt "d") exFs [(0, 1, 2); (0, 1, 3); (0, 2, 3); (1, 2, 3)] merge_sort_contract exK4_square exK4_parts exK4_files ltac:(apply Nat.leb_le; reflexivity))
    as (T & HT & E).
  - intros R C v H. do 4 (destruct R as [|R]; [cbn in H; repeat (apply elem_of_cons in H as [H|H]; [injection H as -> ->; split; [lia|reflexivity]|]); inversion H|]). destruct R; inversion H.
  - eapply bool_decide_unpack; vm_compute; exact I.
  - assert (HJ : forall x y, x < y -> half_joined exK4 x y <-> y < 4).
    { intros x y Hxy. unfold half_joined. split.
      - do 4 (destruct x as [|x]; [do 4 (destruct y as [|y]; [intros _; lia|]); intros [H|H]; [cbn in H; repeat (apply elem_of_cons in H as [H|H]; [discriminate H|]); inversion H|destruct y; inversion H]|]).
        intros [H|H]; [destruct x; inversion H|]. destruct y as [|[|[|[|y]]]]; try lia. destruct y; inversion H.
      - intros Hy. right. do 4 (destruct y as [|y]; [do 3 (destruct x as [|x]; [first [lia|cbn; repeat (left || right)]|]); lia|]). lia. }
    intros a b c. split.
    + intros H. repeat (apply elem_of_cons in H as [H|H]; [injection H as -> -> ->; rewrite !HJ by lia; lia|]). inversion H.
    + intros (H1 & H2 & H3 & H4 & _). apply HJ in H3, H4; [|lia..]. do 2 (destruct a as [|a]; [do 3 (destruct b as [|b]; [try lia; do 4 (destruct c as [|c]; [try lia; repeat (left || right)|]); lia|]); lia|]). lia.
  - reflexivity.
  - exists T. split; [apply HT; reflexivity|exact E].
Qed.
Example C68_masked_nnz_example : exists T, blockedTc_ends 64 1000 255 1 (merge_sort zle) 2 2 (txt "d") exFs T /\ totalmaskednnz T = 4 /\
  length (mjoin (spec_row Z.mul Z.add exK4 exK4 exK4 <$> seq 0 4)) = 3 /\ 0 ∈ row_cols exK4 3 /\ 1 ∈ row_cols exK4 3 /\ 0 ∈ row_cols exK4 1 /\ 2 ∈ row_cols exK4 3 /\ 0 ∈ row_cols exK4 2.
Proof.
  destruct C68_example as (_ & _ & _ & _ & T & HT & E). exists T. split; [apply HT; reflexivity|]. rewrite E. split; [reflexivity|]. split; [vm_compute; reflexivity|].
  split; [|split; [|split; [|split]]]; (eapply bool_decide_unpack; vm_compute; exact I).
Qed.

(** Three vertices in parts of two and of one: the entry (2, 1) is in column 1 of its block. *)
Definition exP3 : csr Z := mkCsr 3 3 2 [0;0;1;2] [0;1] [1;1]%Z.
Definition exBlkU (i j : nat) : mmfile :=
  mkMM Pattern SymNo [] (bsize [2; 1] i) (bsize [2; 1] j) (match i, j with 0, 0 => [(2, 1, 1%Z, [])] | 1, 0 => [(1, 2, 1%Z, [])] | _, _ => [] end).
Definition exFsU (s : list ascii) : option (list ascii) :=
  if bool_decide (s = txt "d/splitmatrix_1_1.mtx") then Some (render (exBlkU 0 0)) else if bool_decide (s = txt "d/splitmatrix_1_2.mtx") then Some (render (exBlkU 0 1)) else
  if bool_decide (s = txt "d/splitmatrix_2_1.mtx") then Some (render (exBlkU 1 0)) else if bool_decide (s = txt "d/splitmatrix_2_2.mtx") then Some (render (exBlkU 1 1)) else None.
Lemma exU_means i j r c v : i < 2 -> j < 2 ->
  (r, c, v) ∈ means (exBlkU i j) <-> r < bsize [2; 1] i /\ c < bsize [2; 1] j /\ (boff [2; 1] j + c, v) ∈ row_entries exP3 (boff [2; 1] i + r).
Proof.
  intros Hi Hj. assert (Hi' : i = 0 \/ i = 1) by lia. assert (Hj' : j = 0 \/ j = 1) by lia. clear Hi Hj.
  destruct Hi' as [-> | ->], Hj' as [-> | ->]; cbn [means exBlkU mm_entries fmap list_fmap mjoin list_join entry_means value_of mm_field mm_symm app Nat.sub]; unfold boff, bsize; cbn [take]; unfold sum_list; cbn [Nat.add lookup list_lookup default from_option id];
  (split; [intros H; repeat (apply elem_of_cons in H as [H|H]; [injection H as -> -> ->; split; [lia|split; [lia|cbn; repeat (left || right)]]|]); inversion H
          |intros (Hr & Hc & H); destruct r as [|[|r]]; try lia; (destruct c as [|[|c]]; try lia); cbn in H;
           repeat (apply elem_of_cons in H as [H|H]; [first [discriminate H|injection H as ->; repeat (left || right)]|]); inversion H]).
Qed.
Lemma exU_files : split_files exP3 [2; 1] (txt "d") exFsU.
Proof.
  intros i j Hi Hj. cbn in Hi, Hj. exists (exBlkU i j), (render (exBlkU i j)). split; [|split; [left; exists []; symmetry; apply app_nil_r|]].
  - assert (Hi' : i = 0 \/ i = 1) by lia. assert (Hj' : j = 0 \/ j = 1) by lia. destruct Hi' as [-> | ->], Hj' as [-> | ->]; vm_compute; reflexivity.
  - assert (Hi' : i = 0 \/ i = 1) by lia. assert (Hj' : j = 0 \/ j = 1) by lia. split.
    { unfold mm_wf. split; [constructor|]. split; [|split; [destruct Hi' as [-> | ->]; vm_compute; discriminate|split; [destruct Hj' as [-> | ->]; vm_compute; discriminate|split]]].
      - apply Forall_forall. intros l Hl. apply Nat.leb_le. revert l Hl. rewrite <- Forall_forall. destruct Hi' as [-> | ->], Hj' as [-> | ->];
        cbn [exBlkU mm_entries mm_field fmap list_fmap]; repeat (apply Forall_cons; split; [vm_compute; reflexivity|]); apply Forall_nil; exact I.
      - destruct Hi' as [-> | ->], Hj' as [-> | ->]; vm_compute; discriminate.
      - destruct Hi' as [-> | ->], Hj' as [-> | ->]; cbn [exBlkU mm_entries mm_rows mm_cols bsize lookup list_lookup default from_option id];
        repeat (apply Forall_cons; split; [split; [lia|split; [lia|split; [vm_compute; discriminate|left; reflexivity]]]|]); apply Forall_nil; exact I. }
    split; [discriminate|]. split; [discriminate|]. split; [destruct Hi' as [-> | ->], Hj' as [-> | ->]; repeat constructor|]. split; [reflexivity|]. split; [reflexivity|].
    split; [destruct Hi' as [-> | ->], Hj' as [-> | ->]; eapply bool_decide_unpack; vm_compute; exact I|]. intros r c v. apply exU_means; lia.
Qed.
Example C68_uneven_example : split_files exP3 [2; 1] (txt "d") exFsU /\ boff [2; 1] 0 + 1 ∈ row_cols exP3 (boff [2; 1] 1 + 0) /\ bsize [2; 1] 1 <= 1 /\
  ~ exists T, blockedTc_ends 64 1000 255 1 (merge_sort zle) 2 2 (txt "d") exFsU T.
Proof.
  split; [exact exU_files|]. assert (H : boff [2; 1] 0 + 1 ∈ row_cols exP3 (boff [2; 1] 1 + 0)) by (eapply bool_decide_unpack; vm_compute; exact I). split; [exact H|]. split; [cbn; lia|].
  apply (C68_uneven_refuted 64 1000 255 1 (merge_sort zle) exP3 [2; 1] (txt "d") exFsU 1 1 0 0 1 merge_sort_contract exU_files); try (cbn; lia). exact H.
Qed.
(** A matrix without rows. *)
Definition exZero : mmfile := mkMM Pattern SymNo [] 0 0 [].
Example C68_empty_part_example : split_files (mkCsr 0 0 0 [0] [] []) [0] (txt "d") (fun _ => Some (render exZero)) /\
  ~ exists T, blockedTc_ends 64 1000 255 1 (merge_sort zle) 1 1 (txt "d") (fun _ => Some (render exZero)) T.
Proof.
  assert (H : split_files (mkCsr 0 0 0 [0] [] []) [0] (txt "d") (fun _ => Some (render exZero))).
  { intros i j Hi Hj. cbn in Hi, Hj. replace i with 0 by lia. replace j with 0 by lia. exists exZero, (render exZero). split; [reflexivity|]. split; [left; exists []; symmetry; apply app_nil_r|].
    split. { unfold mm_wf. split; [constructor|]. split; [repeat constructor; apply Nat.leb_le; vm_compute; reflexivity|]. split; [vm_compute; discriminate|split; [vm_compute; discriminate|split; [vm_compute; discriminate|constructor]]]. }
    split; [discriminate|]. split; [discriminate|]. split; [constructor|]. split; [reflexivity|]. split; [reflexivity|]. split; [constructor|].
    intros r c v. split; [intros X; inversion X|]. intros (X & _). cbn in X. lia. }
  split; [exact H|]. apply (C68_empty_part_refuted 64 1000 255 1 (merge_sort zle) _ [0] (txt "d") _ 0 merge_sort_contract H); [cbn; lia|reflexivity].
Qed.
