(** Proofs about the scratch memory handling (MemModel.v). *)
From Coq Require Import NArith Lia.
From Verif Require Import Base Spec BaseProofs MsaModel McaModel HashModel HeapModel MemModel.
Local Open Scope N_scope.

(** The promise of the hand-over protocol (util.h:54-88): every byte of the buffer at or above the
    declared dirty size is 0xFF. *)
Definition promise (b : buf) : Prop :=
  forall i, b_dirty b <= i -> i < b_size b -> b_ff b i = true.

Lemma SZ_pos : 0 < SZ.
Proof. reflexivity. Qed.
Lemma wadd_small a b : a + b < SZ -> wadd a b = a + b.
Proof. intros. apply N.mod_small. assumption. Qed.
Lemma wmul_small a b : a * b < SZ -> wmul a b = a * b.
Proof. intros. apply N.mod_small. assumption. Qed.
Lemma wsub_le a b : b <= a -> a < SZ -> wsub a b = a - b.
Proof.
  intros H1 H2. unfold wsub. rewrite (N.mod_small b) by lia.
  replace (a + (SZ - b)) with (a - b + 1 * SZ) by lia.
  rewrite N.mod_add by (pose proof SZ_pos; lia). apply N.mod_small. lia.
Qed.
Lemma wsub_gt a b : a < b -> b < SZ -> wsub a b = a + SZ - b.
Proof.
  intros H1 H2. unfold wsub. rewrite (N.mod_small b) by lia.
  rewrite N.mod_small by lia. lia.
Qed.
Lemma wsub_wsub c m d : c < SZ -> m < SZ -> d < SZ -> m <= c + d -> c + d - m < SZ ->
  wsub c (wsub m d) = c + d - m.
Proof.
  intros Hc Hm Hd H1 H2. destruct (N.le_gt_cases d m).
  - rewrite (wsub_le m d) by lia. rewrite wsub_le by lia. lia.
  - rewrite (wsub_gt m d) by lia. unfold wsub. rewrite (N.mod_small (m + SZ - d)) by lia.
    replace (c + (SZ - (m + SZ - d))) with (c + d - m) by lia. apply N.mod_small. lia.
Qed.

Lemma roundUp_spec d n : 0 < d -> n + d < SZ ->
  exists q, roundUp d n = d * q /\ n <= d * q /\ d * q < n + d.
Proof.
  intros Hd Hs. unfold roundUp.
  pose proof (N.div_mod' n d) as E. pose proof (N.mod_lt n d ltac:(lia)) as L.
  revert E L. generalize (n / d) (n mod d). intros q r E L.
  destruct (N.eqb_spec r 0) as [Z|Z].
  - exists q. lia.
  - rewrite (wsub_le d) by lia. rewrite wadd_small by lia. exists (q + 1). rewrite N.mul_add_distr_l, N.mul_1_r. lia.
Qed.
Lemma roundDown_spec d n : 0 < d -> n < SZ ->
  exists q, roundDown d n = d * q /\ d * q <= n /\ n < d * q + d.
Proof.
  intros Hd Hs. unfold roundDown.
  pose proof (N.div_mod' n d) as E. pose proof (N.mod_lt n d ltac:(lia)) as L.
  revert E L. generalize (n / d) (n mod d). intros q r E L.
  rewrite wsub_le by lia. exists q. lia.
Qed.

Lemma allFF_true f off len : allFF f off len = true <-> (forall i, off <= i -> i < off + len -> f i = true).
Proof.
  unfold allFF. rewrite forallb_forall. split.
  - intros H i H1 H2. specialize (H (N.to_nat (i - off))).
    replace (off + N.of_nat (N.to_nat (i - off))) with i in H by lia. apply H.
    apply in_seq. lia.
  - intros H i Hi. apply in_seq in Hi. apply H; lia.
Qed.
Lemma needFF_ok f off len : (forall i, off <= i -> i < off + len -> f i = true) -> needFF f off len = Ok tt.
Proof. intros H. unfold needFF. rewrite (proj2 (allFF_true f off len) H). reflexivity. Qed.

(** What splitMemory guarantees. *)
Record split_post (sD sC nD nC : N) (b b' : buf) (off : N) : Prop := {
  sp_addr : b_addr b' = b_addr b;
  sp_size : b_size b' = b_size b;
  sp_aligned : off mod sC = 0;
  sp_disjoint : sD * nD <= off;
  sp_inrange : off + sC * nC <= b_size b;
  sp_clean : forall i, off <= i -> i < off + sC * nC -> b_ff b' i = true;
  sp_promise : promise b';
  sp_dirty : b_dirty b' <= b_dirty b;
  sp_dirty_off : b_dirty b' <= off;
  sp_below : forall i, i < b_dirty b' -> b_ff b' i = b_ff b i;
  sp_exact : b_dirty b = b_size b -> 0 < sC * nC -> off = b_dirty b';
}.

Lemma split_ok sD sC nD nC k b :
  0 < sC -> b_size b + sC < SZ -> b_dirty b <= b_size b -> promise b ->
  sD * nD <= sC * k -> sC * (k + nC) <= b_size b ->
  exists b' off, splitMemory sD sC nD nC b = Ok (b', off) /\ split_post sD sC nD nC b b' off.
Proof.
  intros HsC Hsz Hd Hp Hk Hfit. unfold splitMemory.
  rewrite (wmul_small sD nD) by nia. rewrite (wmul_small sC nC) by nia.
  destruct (roundDown_spec sC (b_size b)) as (qm & -> & Hm1 & Hm2); [lia|lia|].
  assert (Hkm : k + nC <= qm) by nia.
  destruct (roundUp_spec sC (N.max (b_dirty b) (sD * nD))) as (qu & -> & Hu1 & Hu2); [lia|nia|].
  destruct ((sC * qm <? sC * qu) || (wsub (sC * qm) (sC * qu) <? sC * nC)) eqn:Hbr.
  - assert (Hov : sC * qm < sC * qu + sC * nC).
    { apply orb_true_iff in Hbr as [H%N.ltb_lt|H%N.ltb_lt]; [lia|].
      destruct (N.le_gt_cases (sC * qu) (sC * qm)); [|lia].
      rewrite wsub_le in H by lia. lia. }
    assert (Hgt : k < qu) by nia.
    assert (Hdd : sD * nD < b_dirty b) by nia.
    rewrite (proj2 (N.ltb_lt _ _) Hdd). cbn [assert_ bind].
    assert (Hmc : sC * qm <= sC * nC + b_dirty b).
    { destruct (N.max_spec (b_dirty b) (sD * nD)) as [[? E]|[? E]]; rewrite E in *; [lia|].
      assert (qm < qu + nC) by nia. assert (qu <= b_dirty b / sC + 1).
      { pose proof (N.div_mod' (b_dirty b) sC). pose proof (N.mod_lt (b_dirty b) sC ltac:(lia)). nia. }
      pose proof (N.div_mod' (b_dirty b) sC). nia. }
    assert (Hcm : sC * nC <= sC * qm) by nia.
    rewrite (wsub_wsub (sC * nC)) by (try lia; nia).
    set (tc := sC * nC + b_dirty b - sC * qm).
    assert (Htc : tc <= b_dirty b) by (unfold tc; lia).
    rewrite (wsub_le (b_dirty b) tc) by lia.
    assert (Eoff : b_dirty b - tc = sC * (qm - nC)) by (unfold tc; nia).
    assert (Emod : (b_dirty b - tc) mod sC = 0).
    { rewrite Eoff, N.mul_comm. apply N.mod_mul. lia. }
    rewrite Emod. rewrite (wadd_small tc 0) by lia. rewrite N.add_0_r.
    rewrite (wsub_le (b_dirty b) tc) by lia.
    rewrite (proj2 (N.leb_le _ _) Htc). cbn [assert_ bind].
    unfold memsetFF. rewrite (proj2 (N.leb_le _ _)) by lia. cbn [bind b_addr b_size b_ff b_dirty].
    rewrite (proj2 (N.leb_le (sD * nD) _)) by (rewrite Eoff; nia). cbn [assert_ bind].
    rewrite (proj2 (N.leb_le (_ + _) _)) by (rewrite Eoff; nia). cbn [assert_ bind].
    eexists _, _. split; [reflexivity|]. constructor; cbn [b_addr b_size b_ff b_dirty]; try reflexivity; try exact Emod;
      try (rewrite Eoff; nia); try lia.
    + intros i H1 H2.
      destruct ((b_dirty b - tc <=? i) && (i <? b_dirty b - tc + tc)) eqn:E; [reflexivity|].
      apply Hp; [|lia].
      apply andb_false_iff in E as [E%N.leb_gt|E%N.ltb_ge]; lia.
    + intros i; cbn [b_addr b_size b_ff b_dirty]. intros H1 H2.
      destruct ((b_dirty b - tc <=? i) && (i <? b_dirty b - tc + tc)) eqn:E; [reflexivity|].
      apply Hp; [|lia].
      apply andb_false_iff in E as [E%N.leb_gt|E%N.ltb_ge]; lia.
    + intros i H1. rewrite (proj2 (N.leb_gt _ _)) by lia. reflexivity.
  - apply orb_false_iff in Hbr as [H1%N.ltb_ge H2%N.ltb_ge].
    rewrite wsub_le in H2 by lia. cbn [bind].
    rewrite (proj2 (N.leb_le (sD * nD) _)) by lia. cbn [assert_ bind].
    rewrite (proj2 (N.leb_le (_ + _) _)) by lia. cbn [assert_ bind].
    eexists _, _. split; [reflexivity|]. constructor; try lia; try assumption.
    + rewrite N.mul_comm. apply N.mod_mul. lia.
    + intros i Hi1 Hi2. apply Hp; lia.
Qed.

Lemma clean_ok sC nC b :
  0 < sC -> b_size b + sC < SZ -> b_dirty b <= b_size b -> promise b -> sC * nC <= b_size b ->
  exists b' off, getCleanMemory sC nC b = Ok (b', off) /\ split_post 1 sC 0 nC b b' off.
Proof. intros. apply split_ok with (k := 0); try assumption; lia. Qed.

(** For getCleanMemory the clean objects start exactly at the new dirty size whenever that is where
    the entry grid falls. *)
Lemma clean_exact sC nC b b' off :
  0 < sC -> getCleanMemory sC nC b = Ok (b', off) -> b_dirty b mod sC = 0 -> off = b_dirty b'.
Proof.
  intros HsC. unfold getCleanMemory, splitMemory.
  destruct (_ || _).
  - intros H Hm.
    destruct (assert_ _); [|discriminate]; cbn [bind] in H.
    destruct (assert_ _); [|discriminate]; cbn [bind] in H.
    destruct (memsetFF _ _ _); [|discriminate]; cbn [bind] in H.
    destruct (assert_ _); [|discriminate]; cbn [bind] in H.
    destruct (assert_ _); [|discriminate]; cbn [bind] in H.
    injection H as <- <-. reflexivity.
  - cbn [bind]. intros H Hm.
    destruct (assert_ _); [|discriminate]; cbn [bind] in H.
    destruct (assert_ _); [|discriminate]; cbn [bind] in H.
    injection H as <- <-. unfold wmul. rewrite N.max_l by (cbn; lia).
    unfold roundUp. rewrite Hm. reflexivity.
Qed.

(** ** dirtied *)
Lemma dirtied_outside off sz n c f i :
  (i < off \/ off + sz * N.of_nat n <= i) -> dirtied off sz n c f i = f i.
Proof.
  intros H. unfold dirtied. destruct ((off <=? i) && _) eqn:E; [|reflexivity].
  apply andb_true_iff in E as [?%N.leb_le ?%N.ltb_lt]. lia.
Qed.
Lemma dirtied_clean off sz n c f i :
  (forall j, (j < n)%nat -> off + sz * N.of_nat j <= i -> i < off + sz * (N.of_nat j + 1) -> c j = true) ->
  0 < sz -> dirtied off sz n c f i = f i.
Proof.
  intros H Hs. unfold dirtied. destruct ((off <=? i) && _) eqn:E; [|reflexivity].
  apply andb_true_iff in E as [E1%N.leb_le E2%N.ltb_lt].
  pose proof (N.div_mod' (i - off) sz). pose proof (N.mod_lt (i - off) sz ltac:(lia)).
  assert ((i - off) / sz < N.of_nat n) by (apply N.div_lt_upper_bound; lia).
  rewrite H; [apply andb_true_r| | |]; rewrite ?N2Nat.id; nia.
Qed.

(** ** Accumulators *)
Section Accs.
Context {V : Type}.

(** Hypotheses common to every setBuffer: the buffer is at an address aligned for the accumulator, large
    enough, and the promise holds. *)
Record set_pre (req : N * N) (sC : N) (b : buf) : Prop := {
  pre_align : b_addr b mod snd req = 0;
  pre_fit : fst req <= b_size b;
  pre_small : b_size b + sC < SZ;
  pre_dirty : b_dirty b <= b_size b;
  pre_promise : promise b }.

Lemma isAligned_true a s : a mod s = 0 -> isAligned a s = true.
Proof. intros H. unfold isAligned. apply N.eqb_eq. exact H. Qed.

Lemma msa1_set_ok hasv sz n b :
  0 < sz -> N.of_nat n * sz < SZ -> set_pre (msa1_req sz n) sz b ->
  exists b' off, msa1_set (V := V) hasv sz n b =
      Ok (mkPlaced (if hasv then msa_clean n else msa_clean_sym n) b' off)
    /\ split_post 1 sz 0 (N.of_nat n) b b' off.
Proof.
  intros Hs Hn [H1 H2 H3 H4 H5]. unfold msa1_set, msa1_req in *. cbn [fst snd] in *.
  rewrite isAligned_true by assumption. rewrite wmul_small in * by assumption.
  rewrite (proj2 (N.leb_le _ _) H2). cbn [assert_ bind].
  destruct (clean_ok sz (N.of_nat n) b) as (b' & off & -> & Hpost); try assumption; [lia|].
  cbn [bind]. rewrite needFF_ok by (apply Hpost). cbn [bind]. eauto.
Qed.

Lemma msa2_set_ok hasv sV n b :
  0 < sV -> N.of_nat n * (1 + sV) < SZ -> 1 + sV < SZ -> set_pre (msa2_req hasv sV n) 1 b ->
  exists b' off, msa2_set (V := V) hasv sV n b =
      Ok (mkPlaced (if hasv then msa_clean n else msa_clean_sym n) b' off)
    /\ split_post (if hasv then sV else 1) 1 (if hasv then N.of_nat n else 0) (N.of_nat n) b b' off.
Proof.
  intros Hs Hn Hs1 [H1 H2 H3 H4 H5]. unfold msa2_set, msa2_req in *.
  destruct hasv; cbn [fst snd] in *;
  rewrite isAligned_true by assumption; rewrite (proj2 (N.leb_le _ _) H2); cbn [assert_ bind].
  - rewrite (wadd_small 1 sV) in H2 by lia. rewrite wmul_small in H2 by assumption.
    destruct (split_ok sV 1 (N.of_nat n) (N.of_nat n) (sV * N.of_nat n) b) as (b' & off & -> & Hpost);
      try assumption; try lia.
    cbn [bind]. rewrite needFF_ok by (apply Hpost). cbn [bind]. eauto.
  - rewrite wmul_small in H2 by nia.
    destruct (clean_ok 1 (N.of_nat n) b) as (b' & off & -> & Hpost); try assumption; try lia.
    cbn [bind]. rewrite needFF_ok by (apply Hpost). cbn [bind]. eauto.
Qed.

Lemma mca_set_ok sz n b :
  0 < sz -> N.of_nat n * sz < SZ -> set_pre (mca_req sz n) sz b ->
  exists b' off, mca_setbuf (V := V) sz n b = Ok (mkPlaced (repeat (FF, None) n) b' off)
    /\ split_post 1 sz 0 (N.of_nat n) b b' off.
Proof.
  intros Hs Hn [H1 H2 H3 H4 H5]. unfold mca_setbuf, mca_req in *. cbn [fst snd] in *.
  rewrite isAligned_true by assumption. rewrite wmul_small in * by assumption.
  rewrite (proj2 (N.leb_le _ _) H2). cbn [assert_ bind].
  destruct (clean_ok sz (N.of_nat n) b) as (b' & off & -> & Hpost); try assumption; [lia|].
  cbn [bind]. rewrite needFF_ok by (apply Hpost). cbn [bind]. eauto.
Qed.

Lemma hash_set_ok sz cap size0 max0 b :
  0 < sz -> N.of_nat cap * sz < SZ -> set_pre (hash_req sz cap) sz b ->
  exists b' off, hash_set (V := V) sz cap size0 max0 b =
      Ok (mkPlaced (mkHash (repeat (mkHent None None None) cap) size0 max0 []) b' off)
    /\ split_post 1 sz 0 (N.of_nat cap) b b' off
    /\ (b_dirty b mod sz = 0 -> off = b_dirty b').
Proof.
  intros Hs Hn [H1 H2 H3 H4 H5]. unfold hash_set, hash_req in *. cbn [fst snd] in *.
  rewrite isAligned_true by assumption. rewrite wmul_small in * by assumption.
  rewrite (proj2 (N.leb_le _ _) H2). cbn [assert_ bind].
  destruct (clean_ok sz (N.of_nat cap) b) as (b' & off & E & Hpost); try assumption; [lia|].
  rewrite E. cbn [bind]. rewrite needFF_ok by (apply Hpost). cbn [bind].
  eexists _, _. split; [reflexivity|]. split; [exact Hpost|].
  intros Hm. eapply clean_exact; eassumption.
Qed.

Lemma heap_set_ok sz cap max0 b :
  set_pre (heap_req sz cap) sz b -> heap_set sz cap max0 b = Ok (mkPlaced (mkHeap [] cap max0) b 0).
Proof.
  intros [H1 H2 H3 H4 H5]. unfold heap_set, heap_req in *. cbn [fst snd] in *.
  rewrite isAligned_true by assumption. rewrite (proj2 (N.leb_le _ _) H2). reflexivity.
Qed.

(** *** releaseBuffer keeps the promise *)
(** State of a one-array / mask-compressed / two-array accumulator between two rows. *)
Definition msa_pristine (n : nat) (a : msa V) : Prop :=
  length (st a) = n /\ (forall i s, st a !! i = Some s -> s = FF) /\ (forall i v, vl a !! i = Some v -> v = None).

Lemma pristine_clean n a i : msa_pristine n a -> (i < n)%nat -> msa_entry_clean a i = true.
Proof.
  intros (H1 & H2 & H3) Hi. unfold msa_entry_clean.
  destruct (lookup_lt_is_Some_2 (st a) i ltac:(lia)) as [s Hs].
  rewrite Hs, (H2 _ _ Hs). rewrite bool_decide_true by reflexivity.
  destruct (vl a !! i) as [v|] eqn:E; [rewrite (H3 _ _ E)|]; reflexivity.
Qed.

Lemma msa1_rel_ok sz n a b off :
  0 < sz -> promise b -> msa_pristine n a -> promise (msa1_rel sz (mkPlaced a b off)).
Proof.
  intros Hs Hp Ha i. unfold msa1_rel. cbn [b_dirty b_size b_ff p_acc p_buf p_off]. intros H1 H2.
  rewrite dirtied_clean; [apply Hp; assumption| |assumption].
  intros j Hj _ _. eapply pristine_clean; [exact Ha|]. destruct Ha; lia.
Qed.

Lemma msa2_rel_ok hasv sV n a b off :
  0 < sV -> promise b -> msa_pristine n a -> promise (msa2_rel hasv sV (mkPlaced a b off)).
Proof.
  intros Hs Hp (Ha1 & Ha2 & Ha3) i. unfold msa2_rel. cbn [b_dirty b_size b_ff p_acc p_buf p_off]. intros H1 H2.
  assert (E : dirtied off 1 (length (st a)) (fun i => bool_decide (st a !! i = Some FF)) (b_ff b) i = true).
  { rewrite dirtied_clean; [apply Hp; assumption| |lia].
    intros j Hj _ _. destruct (lookup_lt_is_Some_2 (st a) j ltac:(lia)) as [s Hs'].
    rewrite Hs', (Ha2 _ _ Hs'). apply bool_decide_true. reflexivity. }
  destruct hasv; [|exact E]. rewrite dirtied_clean; [exact E| |exact Hs].
  intros j Hj _ _. destruct (vl a !! j) as [v|] eqn:Ej; [rewrite (Ha3 _ _ Ej)|]; reflexivity.
Qed.

Lemma mca_rel_ok sz n b off :
  0 < sz -> promise b -> promise (mca_relbuf (V := V) sz (mkPlaced (repeat (FF, None) n) b off)).
Proof.
  intros Hs Hp i. unfold mca_relbuf. cbn [b_dirty b_size b_ff p_acc p_buf p_off]. intros H1 H2.
  rewrite dirtied_clean; [apply Hp; assumption| |assumption].
  intros j Hj _ _. unfold mca_entry_clean. rewrite repeat_length in Hj.
  assert (E : repeat (FF, @None V) n !! j = Some (FF, None)).
  { revert j Hj. induction n as [|n IH]; intros [|j] Hj; cbn in *; try lia; [reflexivity|].
    apply IH. lia. }
  rewrite E. reflexivity.
Qed.

Lemma hash_rel_ok sz (a : hash V) b off :
  0 < sz -> promise b -> off = b_dirty b ->
  off + sz * N.of_nat (length (h_tab a)) <= b_size b -> b_size b < SZ -> hash_ok a ->
  b_dirty (hash_rel sz (mkPlaced a b off)) = off + sz * N.of_nat (h_max a)
  /\ promise (hash_rel sz (mkPlaced a b off)).
Proof.
  intros Hs Hp Hoff Hin Hsz [Hc Hmax Hpr].
  assert (Hd : b_dirty (hash_rel sz (mkPlaced a b off)) = off + sz * N.of_nat (h_max a)).
  { unfold hash_rel. cbn [b_dirty p_acc p_buf p_off].
    rewrite wmul_small by nia. rewrite wadd_small by nia. lia. }
  split; [exact Hd|]. intros i Hi1 Hi2. rewrite Hd in Hi1.
  unfold hash_rel in *. cbn [b_dirty b_size b_ff p_acc p_buf p_off] in *.
  rewrite dirtied_clean; [apply Hp; [lia|assumption]| |assumption].
  intros j Hj H3 H4. unfold hash_entry_clean. rewrite Hpr; [reflexivity| |exact Hj]. nia.
Qed.

Lemma heap_rel_ok sz h b :
  0 < sz -> promise b -> N.of_nat (hmax h) * sz < SZ -> promise (heap_rel sz (mkPlaced h b 0)).
Proof.
  intros Hs Hp Hsz i. unfold heap_rel. cbn [b_dirty b_size b_ff p_acc p_buf p_off].
  rewrite wmul_small by assumption. intros H1 H2.
  rewrite dirtied_outside by lia. apply Hp; lia.
Qed.
End Accs.

(** ** Whole algorithms: fresh buffer, symbolic accumulator, numeric accumulator *)
Lemma mod_lcm_l a x y : a mod N.lcm x y = 0 -> 0 < x -> 0 < y -> a mod x = 0.
Proof.
  intros H Hx Hy. apply N.mod_divide; [lia|]. apply N.mod_divide in H.
  - etransitivity; [apply N.divide_lcm_l|exact H].
  - rewrite N.lcm_eq_0. lia.
Qed.
Lemma mod_lcm_r a x y : a mod N.lcm x y = 0 -> 0 < x -> 0 < y -> a mod y = 0.
Proof. intros. rewrite N.lcm_comm in *. eapply mod_lcm_l; eassumption. Qed.

(** A buffer as masked-spgemm.h:57-59,139-141 allocates it: as many bytes as the algorithm asks for, at an
    address aligned as it asks, arbitrary contents, all of it declared dirty. *)
Definition fresh (req : N * N) (b : buf) : Prop :=
  b_addr b mod snd req = 0 /\ b_size b = fst req /\ b_dirty b = b_size b.

Lemma fresh_promise req b : fresh req b -> promise b.
Proof. intros (H1 & H2 & H3) i. lia. Qed.

Section Algs.
Context {V : Type}.

Lemma msa1_fresh_num sz n b :
  0 < sz -> N.of_nat n * sz + sz < SZ -> fresh (both_req (msa1_req 1 n) (msa1_req sz n)) b ->
  exists b' off, msa1_set (V := V) true sz n b = Ok (mkPlaced (msa_clean n) b' off).
Proof.
  intros Hs Hn Hf. assert (Hf' := Hf). destruct Hf' as (Ha & Hb & Hd). unfold both_req, msa1_req in *. cbn [fst snd] in *.
  rewrite !wmul_small in Hb by nia.
  destruct (msa1_set_ok (V := V) true sz n b) as (b' & off & E & _); [exact Hs|lia| |eauto].
  unfold msa1_req. constructor; cbn [fst snd].
  - eapply mod_lcm_r; [exact Ha|lia|exact Hs].
  - rewrite wmul_small by lia. lia.
  - nia.
  - lia.
  - eapply fresh_promise; exact Hf.
Qed.

Lemma msa1_handover sz n b :
  0 < sz -> N.of_nat n * sz + sz < SZ -> fresh (both_req (msa1_req 1 n) (msa1_req sz n)) b ->
  exists b' off, msa1_set (V := V) false 1 n b = Ok (mkPlaced (msa_clean_sym n) b' off) /\
  forall a : msa V, msa_pristine n a ->
  exists b'' off', msa1_set (V := V) true sz n (msa1_rel 1 (mkPlaced a b' off)) = Ok (mkPlaced (msa_clean n) b'' off').
Proof.
  intros Hs Hn Hf. assert (Hp := fresh_promise _ _ Hf). destruct Hf as (Ha & Hb & Hd).
  unfold both_req, msa1_req in *. cbn [fst snd] in *.
  rewrite !wmul_small in Hb by nia.
  destruct (msa1_set_ok (V := V) false 1 n b) as (b' & off & E & Hpost); [lia|nia| |].
  { unfold msa1_req. constructor; cbn [fst snd]; [apply N.mod_1_r|rewrite wmul_small by nia; lia|nia|lia|exact Hp]. }
  eexists _, _. split; [exact E|]. intros a Hpa.
  destruct Hpost as [Q1 Q2 Q3 Q4 Q5 Q6 Q7 Q8 Q9 Q10 Q11].
  destruct (msa1_set_ok (V := V) true sz n (msa1_rel 1 (mkPlaced a b' off))) as (b'' & off' & E' & _); [lia|nia| |eauto].
  assert (Hrel : promise (msa1_rel 1 (mkPlaced a b' off))) by (eapply msa1_rel_ok; [lia|exact Q7|exact Hpa]).
  constructor; cbn [fst snd msa1_req msa1_rel b_addr b_size b_dirty p_buf p_acc]; [| | | |exact Hrel].
  - rewrite Q1. eapply mod_lcm_r; [exact Ha|lia|exact Hs].
  - rewrite wmul_small by lia. lia.
  - nia.
  - lia.
Qed.

Lemma msa2_fresh_num sV n b :
  0 < sV -> N.of_nat n * (1 + sV) + (1 + sV) < SZ -> fresh (both_req (msa2_req false sV n) (msa2_req true sV n)) b ->
  exists b' off, msa2_set (V := V) true sV n b = Ok (mkPlaced (msa_clean n) b' off).
Proof.
  intros Hs Hn Hf. assert (Hp := fresh_promise _ _ Hf). destruct Hf as (Ha & Hb & Hd).
  unfold both_req, msa2_req in Ha, Hb. cbn [fst snd] in *.
  rewrite wadd_small, !wmul_small in Hb by nia.
  destruct (msa2_set_ok (V := V) true sV n b) as (b' & off & E & _); [exact Hs|lia|lia| |eauto].
  unfold msa2_req. constructor; cbn [fst snd]; [| | | |exact Hp].
  - eapply mod_lcm_r; [exact Ha|lia|]. destruct (N.eq_0_gt_0_cases (N.lcm 1 sV)) as [H|H]; [|exact H].
    rewrite N.lcm_eq_0 in H. lia.
  - rewrite wadd_small, wmul_small by lia. lia.
  - nia.
  - lia.
Qed.

Lemma msa2_handover sV n b :
  0 < sV -> N.of_nat n * (1 + sV) + (1 + sV) < SZ -> fresh (both_req (msa2_req false sV n) (msa2_req true sV n)) b ->
  exists b' off, msa2_set (V := V) false sV n b = Ok (mkPlaced (msa_clean_sym n) b' off) /\
  forall a : msa V, msa_pristine n a ->
  exists b'' off', msa2_set (V := V) true sV n (msa2_rel false sV (mkPlaced a b' off)) = Ok (mkPlaced (msa_clean n) b'' off').
Proof.
  intros Hs Hn Hf. assert (Hp := fresh_promise _ _ Hf). destruct Hf as (Ha & Hb & Hd).
  unfold both_req, msa2_req in Ha, Hb. cbn [fst snd] in *.
  rewrite wadd_small, !wmul_small in Hb by nia.
  destruct (msa2_set_ok (V := V) false sV n b) as (b' & off & E & Hpost); [lia|nia|lia| |].
  { unfold msa2_req. constructor; cbn [fst snd]; [apply N.mod_1_r|rewrite wmul_small by nia; lia|nia|lia|exact Hp]. }
  eexists _, _. split; [exact E|]. intros a Hpa.
  destruct Hpost as [Q1 Q2 Q3 Q4 Q5 Q6 Q7 Q8 Q9 Q10 Q11].
  destruct (msa2_set_ok (V := V) true sV n (msa2_rel false sV (mkPlaced a b' off))) as (b'' & off' & E' & _); [lia|nia|lia| |eauto].
  assert (Hrel : promise (msa2_rel false sV (mkPlaced a b' off))) by (eapply msa2_rel_ok; [lia|exact Q7|exact Hpa]).
  constructor; cbn [fst snd msa2_req msa2_rel b_addr b_size b_dirty p_buf p_acc]; [| | | |exact Hrel].
  - rewrite Q1. eapply mod_lcm_r; [exact Ha|lia|]. destruct (N.eq_0_gt_0_cases (N.lcm 1 sV)) as [H|H]; [|exact H].
    rewrite N.lcm_eq_0 in H. lia.
  - rewrite wadd_small, wmul_small by lia. lia.
  - nia.
  - lia.
Qed.

Lemma mca_fresh_num sz n b :
  0 < sz -> N.of_nat n * sz + sz < SZ -> fresh (both_req (mca_req 1 n) (mca_req sz n)) b ->
  exists b' off, mca_setbuf (V := V) sz n b = Ok (mkPlaced (repeat (FF, None) n) b' off).
Proof.
  intros Hs Hn Hf. assert (Hp := fresh_promise _ _ Hf). destruct Hf as (Ha & Hb & Hd).
  unfold both_req, mca_req in *. cbn [fst snd] in *.
  rewrite !wmul_small in Hb by nia.
  destruct (mca_set_ok (V := V) sz n b) as (b' & off & E & _); [exact Hs|lia| |eauto].
  unfold mca_req. constructor; cbn [fst snd]; [| | | |exact Hp].
  - eapply mod_lcm_r; [exact Ha|lia|exact Hs].
  - rewrite wmul_small by lia. lia.
  - nia.
  - lia.
Qed.

Lemma mca_handover sz n b :
  0 < sz -> N.of_nat n * sz + sz < SZ -> fresh (both_req (mca_req 1 n) (mca_req sz n)) b ->
  exists b' off, mca_setbuf (V := V) 1 n b = Ok (mkPlaced (repeat (FF, None) n) b' off) /\
  exists b'' off', mca_setbuf (V := V) sz n (mca_relbuf 1 (mkPlaced (repeat (FF, @None V) n) b' off))
    = Ok (mkPlaced (repeat (FF, None) n) b'' off').
Proof.
  intros Hs Hn Hf. assert (Hp := fresh_promise _ _ Hf). destruct Hf as (Ha & Hb & Hd).
  unfold both_req, mca_req in *. cbn [fst snd] in *.
  rewrite !wmul_small in Hb by nia.
  destruct (mca_set_ok (V := V) 1 n b) as (b' & off & E & Hpost); [lia|nia| |].
  { unfold mca_req. constructor; cbn [fst snd]; [apply N.mod_1_r|rewrite wmul_small by nia; lia|nia|lia|exact Hp]. }
  eexists _, _. split; [exact E|].
  destruct Hpost as [Q1 Q2 Q3 Q4 Q5 Q6 Q7 Q8 Q9 Q10 Q11].
  destruct (mca_set_ok (V := V) sz n (mca_relbuf 1 (mkPlaced (repeat (FF, @None V) n) b' off))) as (b'' & off' & E' & _);
    [lia|nia| |eauto].
  assert (Hrel : promise (mca_relbuf 1 (mkPlaced (repeat (FF, @None V) n) b' off))) by (eapply mca_rel_ok; [lia|exact Q7]).
  constructor; cbn [fst snd mca_req mca_relbuf b_addr b_size b_dirty p_buf p_acc]; [| | | |exact Hrel].
  - rewrite Q1. eapply mod_lcm_r; [exact Ha|lia|exact Hs].
  - rewrite wmul_small by lia. lia.
  - nia.
  - lia.
Qed.

Lemma hash_fresh_num sK sN cap size0 max0 b :
  0 < sK -> 0 < sN -> N.of_nat cap * N.max sK sN + N.max sK sN < SZ ->
  fresh (both_req (hash_req sK cap) (hash_req sN cap)) b ->
  exists b' off, hash_set (V := V) sN cap size0 max0 b
    = Ok (mkPlaced (mkHash (repeat (mkHent None None None) cap) size0 max0 []) b' off).
Proof.
  intros HK Hs Hn Hf. assert (Hp := fresh_promise _ _ Hf). destruct Hf as (Ha & Hb & Hd).
  unfold both_req, hash_req in *. cbn [fst snd] in *.
  rewrite !wmul_small in Hb by nia.
  destruct (hash_set_ok (V := V) sN cap size0 max0 b) as (b' & off & E & _); [exact Hs|nia| |eauto].
  unfold hash_req. constructor; cbn [fst snd]; [| | | |exact Hp].
  - eapply mod_lcm_r; [exact Ha|exact HK|exact Hs].
  - rewrite wmul_small by nia. nia.
  - nia.
  - lia.
Qed.

Lemma hash_handover sK sN cap s1 m1 s2 m2 b :
  0 < sK -> 0 < sN -> (0 < cap)%nat -> N.of_nat cap * N.max sK sN + N.max sK sN < SZ ->
  fresh (both_req (hash_req sK cap) (hash_req sN cap)) b ->
  exists b' off, hash_set (V := V) sK cap s1 m1 b
      = Ok (mkPlaced (mkHash (repeat (mkHent None None None) cap) s1 m1 []) b' off) /\
  forall a : hash V, hash_ok a -> length (h_tab a) = cap ->
  exists b'' off', hash_set (V := V) sN cap s2 m2 (hash_rel sK (mkPlaced a b' off))
    = Ok (mkPlaced (mkHash (repeat (mkHent None None None) cap) s2 m2 []) b'' off').
Proof.
  intros HK Hs Hc Hn Hf. assert (Hp := fresh_promise _ _ Hf). destruct Hf as (Ha & Hb & Hd).
  unfold both_req, hash_req in *. cbn [fst snd] in *.
  rewrite !wmul_small in Hb by nia.
  destruct (hash_set_ok (V := V) sK cap s1 m1 b) as (b' & off & E & Hpost & _); [exact HK|nia| |].
  { unfold hash_req. constructor; cbn [fst snd]; [|rewrite wmul_small by nia; lia|nia|lia|exact Hp].
    eapply mod_lcm_l; [exact Ha|exact HK|exact Hs]. }
  eexists _, _. split; [exact E|]. intros a Hok Hlen.
  destruct Hpost as [Q1 Q2 Q3 Q4 Q5 Q6 Q7 Q8 Q9 Q10 Q11].
  destruct (hash_rel_ok sK a b' off) as [Rd Rp]; [exact HK|exact Q7|apply Q11; nia|rewrite Hlen; nia|nia|exact Hok|].
  pose proof (ho_max a Hok) as Hm.
  destruct (hash_set_ok (V := V) sN cap s2 m2 (hash_rel sK (mkPlaced a b' off))) as (b'' & off' & E' & _);
    [exact Hs|nia| |eauto].
  constructor; [| | | |exact Rp].
  - cbn [hash_rel b_addr p_buf hash_req snd]. rewrite Q1. eapply mod_lcm_r; [exact Ha|exact HK|exact Hs].
  - cbn [hash_rel b_size p_buf hash_req fst]. rewrite wmul_small by nia. nia.
  - cbn [hash_rel b_size p_buf]. nia.
  - rewrite Rd. cbn [hash_rel b_size p_buf]. nia.
Qed.

Lemma heap_fresh sz cap max0 b :
  0 < sz -> N.of_nat cap * sz + sz < SZ -> fresh (heap_req sz cap) b ->
  heap_set sz cap max0 b = Ok (mkPlaced (mkHeap [] cap max0) b 0).
Proof.
  intros Hs Hn Hf. assert (Hp := fresh_promise _ _ Hf). destruct Hf as (Ha & Hb & Hd).
  apply heap_set_ok. unfold heap_req in *. cbn [fst snd] in *. rewrite wmul_small in Hb by lia.
  constructor; cbn [fst snd]; [exact Ha|rewrite wmul_small by lia; lia|lia|lia|exact Hp].
Qed.

Lemma heap_handover sz cap h b :
  0 < sz -> N.of_nat cap * sz + sz < SZ -> fresh (heap_req sz cap) b -> (hmax h <= cap)%nat ->
  exists b', heap_set sz cap (hmax h) (heap_rel sz (mkPlaced h b 0)) = Ok (mkPlaced (mkHeap [] cap (hmax h)) b' 0).
Proof.
  intros Hs Hn Hf Hm. assert (Hp := fresh_promise _ _ Hf). destruct Hf as (Ha & Hb & Hd).
  eexists. apply heap_set_ok. unfold heap_req in *. cbn [fst snd] in *. rewrite wmul_small in Hb by lia.
  constructor; cbn [fst snd heap_rel b_addr b_size b_dirty p_buf p_acc].
  - exact Ha.
  - rewrite wmul_small by lia; lia.
  - lia.
  - rewrite wmul_small by nia. nia.
  - apply heap_rel_ok; [exact Hs|exact Hp|nia].
Qed.
End Algs.

(** ** Aligned allocation *)
Lemma maShift_spec base al : 0 < al -> al + 8 < SZ ->
  8 <= maShift base al /\ maShift base al < al + 8 /\ (base + maShift base al) mod al = 0.
Proof.
  intros Ha Hs. unfold maShift.
  pose proof (N.div_mod' (base + 8) al) as E. pose proof (N.mod_lt (base + 8) al ltac:(lia)) as L.
  remember ((base + 8) / al) as q. remember ((base + 8) mod al) as r. clear Heqq.
  destruct (N.eqb_spec r 0) as [Z|Z].
  - rewrite wadd_small by lia. split; [lia|]. split; [lia|]. replace (base + (8 + 0)) with (base + 8) by lia. lia.
  - rewrite wsub_le by lia. rewrite wadd_small by lia. split; [lia|]. split; [lia|].
    replace (base + (8 + (al - r))) with ((q + 1) * al) by nia. apply N.mod_mul. lia.
Qed.

Lemma header_aligned base al :
  0 < al -> al + 8 < SZ -> base + al + 8 < SZ -> base mod 16 = 0 -> (al mod 8 = 0 \/ al = 1 \/ al = 2 \/ al = 4) ->
  isAligned (wsub (maPtr base al) 8) 8 = true.
Proof.
  intros Ha Hs Hb Hm Hal. destruct (maShift_spec base al Ha Hs) as (S1 & S2 & S3).
  unfold isAligned, maPtr. rewrite wsub_le by lia. apply N.eqb_eq.
  assert (H8 : base mod 8 = 0).
  { apply N.mod_divide; [lia|]. apply N.mod_divide in Hm; [|lia]. etransitivity; [|exact Hm]. exists 2. reflexivity. }
  assert (Hp : (base + maShift base al) mod 8 = 0).
  { destruct Hal as [Hal|Hal].
    - apply N.mod_divide; [lia|]. apply N.mod_divide in Hal; [|lia]. apply N.mod_divide in S3; [|lia].
      etransitivity; eassumption.
    - assert (E : maShift base al = 8).
      { unfold maShift. assert (Z : (base + 8) mod al = 0).
        { apply N.mod_divide; [lia|]. apply N.divide_add_r.
          - apply N.mod_divide in H8; [|lia]. etransitivity; [|exact H8].
            destruct Hal as [->|[->| ->]]; [exists 8|exists 4|exists 2]; reflexivity.
          - destruct Hal as [->|[->| ->]]; [exists 8|exists 4|exists 2]; reflexivity. }
        rewrite Z. reflexivity. }
      rewrite E. apply N.mod_divide; [lia|]. apply N.divide_add_r; [|exists 1; reflexivity].
      apply N.mod_divide in H8; [exact H8|lia]. }
  apply N.mod_divide; [lia|]. apply N.mod_divide in Hp; [|lia].
  apply N.divide_sub_r; [exact Hp|exists 1; reflexivity].
Qed.

Lemma malloc_free base al hdr :
  0 < al -> base + al + 8 < SZ -> isAligned (wsub (maPtr base al) 8) 8 = true ->
  exists hdr', mallocAligned base al hdr = Ok (maPtr base al, hdr') /\
    (forall a, a <> maPtr base al - 8 -> hdr' a = hdr a) /\
    freeAligned (maPtr base al) hdr' = Ok base.
Proof.
  intros Ha Hs Hal. destruct (maShift_spec base al Ha ltac:(lia)) as (S1 & S2 & S3).
  unfold mallocAligned, freeAligned. rewrite Hal. eexists. split; [reflexivity|].
  split.
  - intros a Hne. cbn beta. destruct (N.eqb_spec a (wsub (maPtr base al) 8)) as [->|]; [|reflexivity].
    exfalso. apply Hne. unfold maPtr. rewrite wsub_le by lia. reflexivity.
  - cbn beta. rewrite N.eqb_refl. f_equal. unfold maPtr. rewrite wsub_le by lia. lia.
Qed.

(** ** Statements *)
Lemma splitMemory_ok : forall (sD sC nD nC k : N) (b : buf),
  0 < sC -> b_size b + sC < 2 ^ 64 -> b_dirty b <= b_size b ->
  (forall i, b_dirty b <= i -> i < b_size b -> b_ff b i = true) ->
  sD * nD <= sC * k -> sC * (k + nC) <= b_size b ->
  exists b' off, splitMemory sD sC nD nC b = Ok (b', off) /\
    b_addr b' = b_addr b /\ b_size b' = b_size b /\
    off mod sC = 0 /\ sD * nD <= off /\ off + sC * nC <= b_size b /\
    (forall i, off <= i -> i < off + sC * nC -> b_ff b' i = true) /\
    (forall i, b_dirty b' <= i -> i < b_size b' -> b_ff b' i = true) /\
    b_dirty b' <= b_dirty b /\ b_dirty b' <= off /\
    (forall i, i < b_dirty b' -> b_ff b' i = b_ff b i).
Proof.
  intros sD sC nD nC k b H1 H2 H3 H4 H5 H6.
  destruct (split_ok sD sC nD nC k b H1 H2 H3 H4 H5 H6) as (b' & off & E & []).
  exists b', off. repeat (split; [assumption|]). assumption.
Qed.

Lemma hash_release_refuted :
  ~ (forall (sz : N) (cap : nat) (b : buf) (p : placed (hash Z)) (a : hash Z),
       0 < sz -> b_dirty b <= b_size b -> promise b ->
       hash_set sz cap 0 0 b = Ok p -> hash_ok a -> length (h_tab a) = cap ->
       promise (hash_rel sz (mkPlaced a (p_buf p) (p_off p)))).
Proof.
  intros H.
  set (b := mkBuf 48 64 1 (fun i => 1 <=? i)).
  set (a := mkHash [mkHent None (Some 7%Z) None] 1 1 []).
  specialize (H 24 1%nat b (mkPlaced (mkHash [mkHent None None None] 0 0 []) b 24) a).
  assert (E : hash_set 24 1 0 0 b = Ok (mkPlaced (mkHash [mkHent (V := Z) None None None] 0 0 []) b 24)) by reflexivity.
  assert (P : promise b) by (intros i Hi _; apply N.leb_le; exact Hi).
  assert (O : hash_ok a).
  { constructor.
    - split; [reflexivity|]. intros [|i] e He; cbn in He; [injection He as <-; reflexivity|discriminate].
    - cbn. lia.
    - cbn. lia. }
  assert (F : b_ff (hash_rel 24 (mkPlaced a b 24)) 40 = true); [|discriminate F].
  refine (H _ _ P E O _ 40 _ _); vm_compute; congruence.
Qed.

Lemma hash_release_aligned {V} : forall (sz : N) (cap : nat) (b : buf) (p : placed (hash V)) (a : hash V),
  0 < sz -> N.of_nat cap * sz < 2 ^ 64 -> b_size b + sz < 2 ^ 64 -> b_dirty b <= b_size b ->
  (forall i, b_dirty b <= i -> i < b_size b -> b_ff b i = true) ->
  b_dirty b mod sz = 0 ->
  hash_set sz cap 0 0 b = Ok p -> hash_ok a -> length (h_tab a) = cap ->
  forall i, let b' := hash_rel sz (mkPlaced a (p_buf p) (p_off p)) in
  b_dirty b' <= i -> i < b_size b' -> b_ff b' i = true.
Proof.
  intros sz cap b p a Hs Hc Hb Hd Hp Hm Hset Hok Hlen i b'.
  assert (Hpre : set_pre (hash_req sz cap) sz b).
  { unfold hash_set in Hset. unfold hash_req.
    destruct (isAligned (b_addr b) sz) eqn:E1; [|discriminate]. cbn [assert_ bind] in Hset.
    destruct (_ <=? b_size b) eqn:E2 in Hset; [|discriminate].
    constructor; cbn [fst snd]; [apply N.eqb_eq, E1|apply N.leb_le, E2|exact Hb|exact Hd|exact Hp]. }
  destruct (hash_set_ok (V := V) sz cap 0 0 b Hs Hc Hpre) as (b1 & off & E & P & Hoff).
  rewrite E in Hset. injection Hset as <-. cbn [p_buf p_off] in *. destruct P.
  destruct (hash_rel_ok sz a b1 off) as [_ R]; try assumption; [auto|rewrite Hlen; lia|unfold SZ; lia|].
  apply R.
Qed.

Lemma msa_release {V} : forall (two hasv : bool) (sz : N) (n : nat) (a : msa V) (b : buf) (off : N),
  0 < sz -> msa_pristine n a ->
  (forall i, b_dirty b <= i -> i < b_size b -> b_ff b i = true) ->
  let b' := if two then msa2_rel hasv sz (mkPlaced a b off) else msa1_rel sz (mkPlaced a b off) in
  forall i, b_dirty b' <= i -> i < b_size b' -> b_ff b' i = true.
Proof.
  intros two hasv sz n a b off Hs Ha Hp. destruct two.
  - exact (msa2_rel_ok hasv sz n a b off Hs Hp Ha).
  - exact (msa1_rel_ok sz n a b off Hs Hp Ha).
Qed.

Lemma mallocAligned_ok : forall base al nbytes : N,
  0 < al -> base + (al + 8 + nbytes) < 2 ^ 64 ->
  let p := maPtr base al in
  p mod al = 0 /\ base + 8 <= p /\ p + nbytes <= base + maReq nbytes al /\
  wsub p (maShift base al) = base.
Proof.
  intros base al nb Ha Hb p. change (2 ^ 64) with SZ in Hb.
  destruct (maShift_spec base al Ha ltac:(lia)) as (S1 & S2 & S3).
  unfold p, maPtr, maReq. rewrite (wadd_small al 8), (wadd_small _ nb) by lia.
  split; [exact S3|]. split; [lia|]. split; [lia|]. rewrite wsub_le by lia. lia.
Qed.

Lemma malloc_free_ok : forall (base al : N) (hdr : N -> option N),
  0 < al -> base + al + 8 < 2 ^ 64 -> base mod 16 = 0 ->
  (al mod 8 = 0 \/ al = 1 \/ al = 2 \/ al = 4) ->
  exists hdr', mallocAligned base al hdr = Ok (maPtr base al, hdr') /\
    (forall a, a <> maPtr base al - 8 -> hdr' a = hdr a) /\
    freeAligned (maPtr base al) hdr' = Ok base.
Proof.
  intros base al hdr Ha Hb Hm Hal. change (2 ^ 64) with SZ in Hb.
  apply malloc_free; [exact Ha|exact Hb|]. apply header_aligned; try assumption; lia.
Qed.

Lemma header_refuted :
  ~ (forall base al hdr, 0 < al -> base mod 16 = 0 -> exists r, mallocAligned base al hdr = Ok r).
Proof.
  intros H. destruct (H 48 12 (fun _ => None)) as [r Hr]; [lia|reflexivity|]. discriminate Hr.
Qed.

Lemma heap_handover_ok : forall (sz : N) (cap max0 : nat) (b : buf),
  0 < sz -> N.of_nat cap * sz + sz < 2 ^ 64 -> fresh (heap_req sz cap) b ->
  heap_set sz cap max0 b = Ok (mkPlaced (mkHeap [] cap max0) b 0) /\
  forall h, (hmax h <= cap)%nat ->
  let b1 := heap_rel sz (mkPlaced h b 0) in
  (forall i, b_dirty b1 <= i -> i < b_size b1 -> b_ff b1 i = true) /\
  exists b', heap_set sz cap (hmax h) b1 = Ok (mkPlaced (mkHeap [] cap (hmax h)) b' 0).
Proof.
  intros sz cap max0 b H1 H2 H3. change (2 ^ 64) with SZ in H2.
  split; [exact (heap_fresh sz cap max0 b H1 H2 H3)|]. intros h Hh b1. split.
  - apply heap_rel_ok; [exact H1|eapply fresh_promise; exact H3|nia].
  - exact (heap_handover sz cap h b H1 H2 H3 Hh).
Qed.
Lemma heap_release : forall (sz : N) (h : heap) (b : buf),
  0 < sz -> N.of_nat (hmax h) * sz < 2 ^ 64 ->
  (forall i, b_dirty b <= i -> i < b_size b -> b_ff b i = true) ->
  let b' := heap_rel sz (mkPlaced h b 0) in
  forall i, b_dirty b' <= i -> i < b_size b' -> b_ff b' i = true.
Proof. intros sz h b H1 H2 H3. exact (heap_rel_ok sz h b H1 H3 H2). Qed.
