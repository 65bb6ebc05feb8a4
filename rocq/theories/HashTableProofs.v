(** The open-addressing table is a finite map (C20), sizing (C21). *)
From stdpp Require Import gmap sorting.
From Verif Require Import Base Spec KernelBase BaseProofs HashModel.

(** *** Sizing *)
Section Sizing.
Local Open Scope N_scope.

(** Doubling from 2^k finds the first power of two that does not satisfy [cond]. *)
Lemma dbl_spec w cond fuel k k' :
  k <= k' -> k' < w -> (N.to_nat (k' - k) < fuel)%nat ->
  (forall i, k <= i -> i < k' -> cond (2 ^ i) = true) -> cond (2 ^ k') = false ->
  dbl w fuel cond (2 ^ k) = Ok (2 ^ k').
Proof.
  revert k. induction fuel as [|fuel IH]; intros k Hk Hw Hf Hc Hn; [lia|].
  cbn [dbl]. destruct (N.eq_dec k k') as [->|Hne].
  - rewrite Hn. reflexivity.
  - rewrite Hc by lia. rewrite N.mod_small.
    + rewrite N.mul_comm, <- N.pow_succ_r'. apply IH; try lia.
      intros i Hi1 Hi2. apply Hc; lia.
    + rewrite N.mul_comm, <- N.pow_succ_r'. apply N.pow_lt_mono_r; lia.
Qed.

(** First power of two, at least 2^k, that is at least [x]. *)
Lemma first_pow k x : exists k', k <= k' /\ x <= 2 ^ k' /\ (k' = k \/ 2 ^ k' < 2 * x).
Proof.
  destruct (N.le_gt_cases x (2 ^ k)) as [H|H]; [exists k; split; [lia|split; [exact H|lia]]|].
  assert (0 < 2 ^ k) by (apply N.neq_0_lt_0, N.pow_nonzero; lia).
  exists (N.log2_up x). assert (1 < x) by lia.
  destruct (N.log2_up_spec x) as [Hl1 Hl2]; [lia|].
  split; [|split; [exact Hl2|right]].
  - destruct (N.le_gt_cases k (N.log2_up x)) as [?|Hlt]; [assumption|].
    assert (2 ^ N.log2_up x < 2 ^ k) by (apply N.pow_lt_mono_r; lia). lia.
  - assert (0 < N.log2_up x) by (apply N.log2_up_pos; lia).
    rewrite <- (N.succ_pred_pos (N.log2_up x)) by assumption.
    rewrite N.pow_succ_r'. lia.
Qed.

Lemma pow_lt_inv a b : 2 ^ a < 2 ^ b -> a < b.
Proof.
  intros H. destruct (N.le_gt_cases b a) as [Hle|]; [|assumption].
  assert (2 ^ b <= 2 ^ a) by (apply N.pow_le_mono_r; lia). lia.
Qed.

Theorem adjustSizeF_spec w fuel n : 5 <= w -> w <= 64 -> (N.to_nat w < fuel)%nat ->
  4 * (n + 1) <= 2 ^ (w - 1) ->
  exists k, adjustSizeF w fuel n = Ok (2 ^ k) /\ 4 <= k /\ k < w /\
    4 * (n + 1) <= 2 ^ k /\ (2 ^ k = 16 \/ 2 ^ k < 8 * (n + 1)).
Proof.
  intros Hw1 Hw2 Hf Hn.
  assert (Hpw : 2 ^ w = 2 * 2 ^ (w - 1)).
  { rewrite <- N.pow_succ_r'. f_equal. lia. }
  assert (H64 : 2 ^ w <= 2 ^ 64) by (apply N.pow_le_mono_r; lia).
  unfold adjustSizeF. cbv zeta. rewrite (N.mod_small (n + 1)) by lia.
  set (r := n + 1) in *. assert (0 < r) by lia.
  destruct (first_pow 4 r) as (k1 & H1a & H1b & H1c).
  destruct (first_pow k1 (4 * r)) as (k2 & H2a & H2b & H2c).
  assert (Hk2 : 2 ^ k2 < 2 ^ w).
  { destruct H2c as [-> | H2c]; [|lia]. destruct H1c as [-> | H1c]; [|lia].
    assert (2 ^ 4 < 2 ^ w) by (apply N.pow_lt_mono_r; lia). lia. }
  assert (k2 < w) by (apply pow_lt_inv; assumption).
  exists k2. split; [|split; [lia|split; [assumption|split; [lia|]]]].
  - rewrite (dbl_spec w _ fuel 4 k1).
    + rewrite bind_Ok. apply dbl_spec; [lia|lia|lia| |].
      * intros i Hi1 Hi2. destruct H2c as [->|H2c]; [lia|].
        assert (2 ^ (i + 1) <= 2 ^ k2) by (apply N.pow_le_mono_r; lia).
        rewrite N.add_1_r, N.pow_succ_r' in *.
        rewrite N.mul_1_r, !N.mod_small by lia. apply N.ltb_lt. lia.
      * rewrite N.mul_1_r, !N.mod_small by lia. apply N.ltb_ge. lia.
    + lia.
    + assert (2 ^ k1 <= 2 ^ k2) by (apply N.pow_le_mono_r; lia). apply (pow_lt_inv k1 w). lia.
    + lia.
    + intros i Hi1 Hi2. destruct H1c as [->|H1c]; [lia|].
      assert (2 ^ (i + 1) <= 2 ^ k1) by (apply N.pow_le_mono_r; lia).
      rewrite N.add_1_r, N.pow_succ_r' in *. apply N.ltb_lt. lia.
    + apply N.ltb_ge. lia.
  - destruct H2c as [-> | H2c]; [|lia]. destruct H1c as [-> | H1c]; [left; reflexivity|]. lia.
Qed.
End Sizing.

(** Doubling never ends when the condition holds of every representable power of two and of 0. *)
Lemma dbl_diverges w cond fuel k :
  (forall i, i < w -> cond (2 ^ i) = true)%N -> cond 0%N = true ->
  dbl w fuel cond ((2 ^ k) mod 2 ^ w)%N = Err OutOfFuel.
Proof.
  intros Hc H0. revert k. induction fuel as [|fuel IH]; intros k; [reflexivity|]. cbn [dbl].
  assert (2 ^ w <> 0)%N as Hnz by (apply N.pow_nonzero; lia).
  assert (cond ((2 ^ k) mod 2 ^ w) = true)%N as ->.
  { destruct (N.lt_ge_cases k w) as [Hlt|Hge].
    - rewrite N.mod_small by (apply N.pow_lt_mono_r; lia). auto.
    - replace k with (w + (k - w))%N by lia. rewrite N.pow_add_r, N.mul_comm, N.mod_mul by exact Hnz. exact H0. }
  rewrite N.mul_mod_idemp_l by exact Hnz. rewrite N.mul_comm, <- N.pow_succ_r'. apply IH.
Qed.

(** When 4*(n+1) exceeds the largest power of two of the type, adjustSize never returns. *)
Theorem adjustSizeF_diverges w fuel n : (5 <= w <= 62)%N -> (n + 1 < 2 ^ w)%N -> (2 ^ (w - 1) < 4 * (n + 1))%N ->
  adjustSizeF w fuel n = Err OutOfFuel.
Proof.
  intros Hw Hn Hbig. unfold adjustSizeF. cbv zeta. rewrite (N.mod_small (n + 1)) by exact Hn.
  assert (2 ^ w <= 2 ^ 62)%N as H62 by (apply N.pow_le_mono_r; lia).
  change (2 ^ 62)%N with 4611686018427387904%N in H62.
  set (r := (n + 1)%N) in *.
  assert (forall i, i < w -> 2 ^ i <= 2 ^ (w - 1))%N as Hpow by (intros; apply N.pow_le_mono_r; lia).
  assert (forall j, exists s, dbl w fuel (fun s => (s <? r)%N) ((2 ^ j) mod 2 ^ w)%N = s /\
     (s = Err OutOfFuel \/ exists k, s = Ok ((2 ^ k) mod 2 ^ w)%N)) as Hfirst.
  { intros j. eexists. split; [reflexivity|]. revert j. induction fuel as [|f IH]; intros j; [left; reflexivity|]. cbn [dbl].
    destruct ((2 ^ j) mod 2 ^ w <? r)%N; [|right; eauto].
    rewrite N.mul_mod_idemp_l by (apply N.pow_nonzero; lia). rewrite N.mul_comm, <- N.pow_succ_r'. apply IH. }
  destruct (Hfirst 4%N) as (s & Hs & Hor). rewrite N.mod_small in Hs by (apply N.pow_lt_mono_r; lia).
  change (2 ^ 4)%N with 16%N in Hs. rewrite Hs. destruct Hor as [->|[k ->]]; [reflexivity|].
  rewrite bind_Ok. apply dbl_diverges.
  - intros i Hi. specialize (Hpow i Hi). rewrite N.mul_1_r. change (2 ^ 64)%N with 18446744073709551616%N.
    assert (2 ^ (w - 1) <= 2 ^ w)%N by (apply N.pow_le_mono_r; lia).
    rewrite !N.mod_small by lia. apply N.ltb_lt. lia.
  - change (2 ^ 64)%N with 18446744073709551616%N. rewrite !N.mod_small by lia. apply N.ltb_lt. lia.
Qed.

Theorem adjustSize_spec w n : fits w n ->
  exists k, adjustSize w n = Ok (2 ^ k) /\ 4 <= k /\ (N.of_nat k < w)%N /\
    4 * (n + 1) <= 2 ^ k /\ (2 ^ k = 16 \/ 2 ^ k < 8 * (n + 1)).
Proof.
  intros [Hw Hn].
  destruct (adjustSizeF_spec w (N.to_nat w + 1) (N.of_nat n)) as (k & Hk & H1 & H2 & H3 & H4); try lia.
  assert (Hpow : N.to_nat (2 ^ k) = 2 ^ N.to_nat k).
  { rewrite N2Nat.inj_pow. reflexivity. }
  exists (N.to_nat k). unfold adjustSize. rewrite Hk. simpl. rewrite <- Hpow.
  split; [reflexivity|]. lia.
Qed.

Lemma pow2_le_mono a b : a <= b -> 2 ^ a <= 2 ^ b.
Proof. intros. apply Nat.pow_le_mono_r; lia. Qed.

(** Larger requests never get a smaller table. *)
Lemma adjustSize_mono w n m s t : fits w m -> n <= m ->
  adjustSize w n = Ok s -> adjustSize w m = Ok t -> s <= t.
Proof.
  intros Hm Hle Hs Ht.
  assert (fits w n) as Hn by (destruct Hm; split; lia).
  destruct (adjustSize_spec w n Hn) as (k & Hk & Hk4 & _ & _ & Hk2).
  destruct (adjustSize_spec w m Hm) as (j & Hj & Hj4 & _ & Hj1 & _).
  rewrite Hk in Hs. rewrite Hj in Ht. inversion Hs. inversion Ht. subst.
  pose proof (pow2_le_mono 4 j Hj4) as H16.
  change (2 ^ 4) with 16 in H16.
  destruct Hk2 as [Hk2|Hk2]; [lia|].
  (* 2^k < 8(n+1) <= 2 * 2^j *)
  assert (2 ^ k < 2 ^ (S j)) as Hlt by (cbn [Nat.pow]; lia).
  apply Nat.pow_lt_mono_r_iff in Hlt; [|lia]. apply pow2_le_mono. lia.
Qed.

(** *** Slots *)
Lemma hslot_lt w size key : 0 < size -> hslot w size key < size.
Proof.
  intros Hs. unfold hslot.
  assert (forall a m, (N.land a m <= m)%N) as Hland.
  { intros a m. destruct (N.le_gt_cases (N.land a m) m) as [?|Hgt]; [assumption|].
    exfalso. apply (N.lt_irrefl m). eapply N.lt_le_trans; [exact Hgt|].
    apply N.ldiff_le. apply N.bits_inj. intros i. rewrite N.ldiff_spec, N.land_spec, N.bits_0.
    destruct (N.testbit a i), (N.testbit m i); reflexivity. }
  specialize (Hland ((N.of_nat key * 107) mod 2 ^ w)%N (N.of_nat (size - 1))). lia.
Qed.

Lemma hnext_spec0 k i : i < 2 ^ k -> hnext (2 ^ k) i = if i + 1 =? 2 ^ k then 0 else i + 1.
Proof.
  intros Hi. unfold hnext. replace (2 ^ k - 1) with (Nat.ones k).
  2:{ rewrite Nat.ones_equiv. lia. }
  rewrite Nat.land_ones. destruct (Nat.eqb_spec (i + 1) (2 ^ k)) as [->|Hne].
  - apply Nat.mod_same. lia.
  - apply Nat.mod_small. lia.
Qed.

Lemma hnext_rel k i : i < 2 ^ k ->
  (i + 1 = 2 ^ k /\ hnext (2 ^ k) i = 0) \/ (i + 1 < 2 ^ k /\ hnext (2 ^ k) i = i + 1).
Proof.
  intros Hi. rewrite hnext_spec0 by exact Hi. destruct (Nat.eqb_spec (i + 1) (2 ^ k)); lia.
Qed.

(** *** The table as a map *)
Section Table.
Context {V : Type} (w : N).
Notation payload := (option V * option bool)%type.
Implicit Types t : list (hent V).

(** Key stored in slot [i]. *)
Definition kat t (i : nat) : option nat := e ← t !! i; hk e.

(** Slot [p] is passed when probing from [a] to [b] (b excluded), cyclically. *)
Definition onpath (a p b : nat) : Prop := (a <= p /\ p < b) \/ (b < a /\ (a <= p \/ p < b)).

Record twf (sz : nat) t (S : nat -> Prop) : Prop := mkTwf {
  tw_len : sz <= length t;
  tw_out : forall i, sz <= i -> kat t i = None;
  tw_inj : forall i j k, kat t i = Some k -> kat t j = Some k -> i = j;
  tw_probe : forall i k p, kat t i = Some k -> S k -> onpath (hslot w sz k) p i -> p < sz ->
      exists k', kat t p = Some k' /\ S k' }.

(** [t] stores exactly the map [m]. *)
Definition tmap (t : list (hent V)) (m : gmap nat payload) : Prop :=
  forall k p, m !! k = Some p <-> exists i e, t !! i = Some e /\ hk e = Some k /\ (hv1 e, hv2 e) = p.

Lemma kat_Some t i k : kat t i = Some k <-> exists e, t !! i = Some e /\ hk e = Some k.
Proof.
  unfold kat. split.
  - destruct (t !! i) as [e|] eqn:E; simpl; [|discriminate]. eauto.
  - intros (e & -> & H). exact H.
Qed.

Lemma kat_insert t i e j : i < length t -> kat (<[i:=e]> t) j = if decide (i = j) then hk e else kat t j.
Proof.
  intros Hi. unfold kat. destruct (decide (i = j)) as [<-|Hne].
  - rewrite list_lookup_insert by exact Hi. reflexivity.
  - rewrite list_lookup_insert_ne by exact Hne. reflexivity.
Qed.

Lemma tmap_None t m k : tmap t m -> (m !! k = None <-> forall i, kat t i <> Some k).
Proof.
  intros Hm. split.
  - intros Hn i Hi. apply kat_Some in Hi as (e & He & Hk).
    assert (m !! k = Some (hv1 e, hv2 e)) by (apply Hm; eauto). congruence.
  - intros H. destruct (m !! k) as [p|] eqn:E; [|reflexivity].
    apply Hm in E as (i & e & He & Hk & _). exfalso. apply (H i). apply kat_Some. eauto.
Qed.

Lemma tmap_kat t m k : tmap t m -> (is_Some (m !! k) <-> exists i, kat t i = Some k).
Proof.
  intros Hm. split.
  - intros [p Hp]. apply Hm in Hp as (i & e & He & Hk & _). exists i. apply kat_Some. eauto.
  - intros [i Hi]. apply kat_Some in Hi as (e & He & Hk). exists (hv1 e, hv2 e). apply Hm. eauto.
Qed.

(** A table with fewer entries than slots has an empty slot. *)
Lemma empty_slot sz t m : sz <= length t -> (forall i, sz <= i -> kat t i = None) ->
  (forall i j k, kat t i = Some k -> kat t j = Some k -> i = j) ->
  tmap t m -> size m < sz -> exists z, z < sz /\ kat t z = None.
Proof.
  intros Hl Hout Hinj Hm Hsz.
  destruct (decide (Exists (fun z => kat t z = None) (seq 0 sz))) as [He|He].
  - apply Exists_exists in He as (z & Hz & Hk). apply elem_of_seq in Hz. exists z. split; [lia|exact Hk].
  - exfalso. rewrite <- Forall_Exists_neg in He.
    assert (forall z, z < sz -> exists k, kat t z = Some k) as Hall.
    { intros z Hz. rewrite Forall_forall in He. specialize (He z ltac:(apply elem_of_seq; lia)).
      destruct (kat t z) as [k|]; [eauto|congruence]. }
    set (ks := omap (kat t) (seq 0 sz)).
    assert (forall n a, a + n <= sz -> length (omap (kat t) (seq a n)) = n) as Hlen.
    { induction n as [|n IH]; intros a Ha; [reflexivity|]. simpl.
      destruct (Hall a ltac:(lia)) as [k ->]. simpl. rewrite IH by lia. reflexivity. }
    assert (forall n a, NoDup (omap (kat t) (seq a n))) as Hnd.
    { induction n as [|n IH]; intros a; [constructor|]. simpl.
      destruct (kat t a) as [k|] eqn:Ek; [|apply IH]. constructor; [|apply IH].
      rewrite elem_of_list_omap. intros (x & Hx & Hkx). apply elem_of_seq in Hx.
      assert (a = x) by (eapply Hinj; eauto). lia. }
    assert (NoDup ks) as Hndk by apply Hnd.
    assert (length ks = sz) as Hlk by (apply Hlen; lia).
    assert (list_to_set ks ⊆ dom m) as Hsub.
    { intros k Hk. apply elem_of_list_to_set, elem_of_list_omap in Hk as (i & _ & Hi).
      apply elem_of_dom. apply (tmap_kat t m k Hm). eauto. }
    apply subseteq_size in Hsub. rewrite size_list_to_set in Hsub by exact Hndk.
    rewrite size_dom in Hsub. lia.
Qed.

Context (kk : nat).
Notation sz := (2 ^ kk).

Lemma sz_pos : 0 < sz.
Proof. assert (2 ^ kk <> 0) by (apply Nat.pow_nonzero; lia). lia. Qed.

Lemma hs_lt k : hslot w sz k < sz.
Proof. apply hslot_lt, sz_pos. Qed.

Ltac nxt i := let H := fresh in assert (i < 2 ^ kk) as H by lia; pose proof (hnext_rel kk i H); clear H.

(** Forward distance from [a] to [z]. *)
Definition cdist (a z : nat) : nat := if a <=? z then z - a else z + sz - a.

Lemma cdist_next a z : a < sz -> z < sz -> a <> z -> cdist a z = S (cdist (hnext sz a) z).
Proof.
  intros Ha Hz Hne. unfold cdist. nxt a.
  destruct (Nat.leb_spec a z), (Nat.leb_spec (hnext sz a) z); lia.
Qed.
Lemma cdist_0 a z : a < sz -> z < sz -> cdist a z = 0 -> a = z.
Proof. unfold cdist. destruct (Nat.leb_spec a z); lia. Qed.
Lemma cdist_lt a z : a < sz -> z < sz -> cdist a z < sz.
Proof. unfold cdist. destruct (Nat.leb_spec a z); lia. Qed.

Lemma onpath_next a b p : a < sz -> b < sz -> p < sz -> hnext sz b <> a ->
  onpath a p (hnext sz b) <-> onpath a p b \/ p = b.
Proof. intros Ha Hb Hp Hne. unfold onpath. nxt b. lia. Qed.

(** *** findIdx *)
(** General probe walk: with an empty slot [z] ahead the loop stops, at a slot holding the key or
    at an empty slot, having seen only other keys on the way. *)
Lemma probe_spec t key z : sz <= length t -> z < sz -> kat t z = None ->
  forall d fuel hv, hv < sz -> d = cdist hv z -> d < fuel ->
  (forall p, p < sz -> onpath (hslot w sz key) p hv -> exists k, kat t p = Some k /\ k <> key) ->
  ~ onpath (hslot w sz key) z hv ->
  exists idx, probe fuel t sz key hv = Ok idx /\ idx < sz /\
    (kat t idx = Some key \/ kat t idx = None) /\
    (forall p, p < sz -> onpath (hslot w sz key) p idx -> exists k, kat t p = Some k /\ k <> key).
Proof.
  intros Hl Hz Hez. pose proof (hs_lt key) as Hh.
  induction d as [|d IH]; intros fuel hv Hhv Hd Hfuel Hseen Hnz.
  - assert (hv = z) as -> by (apply cdist_0; auto).
    destruct fuel as [|fuel]; [lia|]. cbn [probe].
    destruct (lookup_lt_is_Some_2 t z) as [e He]; [lia|].
    rewrite (get_Some _ _ _ He). rewrite bind_Ok.
    assert (hk e = None) as -> by (unfold kat in Hez; rewrite He in Hez; exact Hez).
    exists z. split; [reflexivity|]. auto.
  - destruct fuel as [|fuel]; [lia|]. cbn [probe].
    destruct (lookup_lt_is_Some_2 t hv) as [e He]; [lia|].
    rewrite (get_Some _ _ _ He). rewrite bind_Ok.
    assert (kat t hv = hk e) as Hke by (unfold kat; rewrite He; reflexivity).
    destruct (hk e) as [k|]; [|exists hv; split; [reflexivity|]; auto].
    destruct (Nat.eqb_spec k key) as [->|Hne]; [exists hv; split; [reflexivity|]; auto|].
    assert (hv <> z) as Hhvz by (intros ->; congruence).
    rewrite cdist_next in Hd by auto.
    destruct (decide (hnext sz hv = hslot w sz key)) as [Hnh|Hnh].
    + (* wrapped all the way round: impossible, z would have been on the path *)
      exfalso. apply Hnz. unfold onpath. nxt hv. lia.
    + apply IH.
      * nxt hv. lia.
      * lia.
      * lia.
      * intros p Hp Hon. rewrite onpath_next in Hon by auto.
        destruct Hon as [Hon| ->]; [apply Hseen; assumption|]. exists k. auto.
      * rewrite onpath_next by auto. intros [Hon| ->]; [exact (Hnz Hon)|congruence].
Qed.

Lemma findIdx_spec t key z mx ks : sz <= length t -> z < sz -> kat t z = None ->
  exists idx, findIdx w (mkHash t sz mx ks) key = Ok idx /\ idx < sz /\
    (kat t idx = Some key \/ kat t idx = None) /\
    (forall p, p < sz -> onpath (hslot w sz key) p idx -> exists k, kat t p = Some k /\ k <> key).
Proof.
  intros Hl Hz Hez. unfold findIdx. cbn [h_size h_tab]. pose proof (hs_lt key) as Hh.
  eapply (probe_spec t key z Hl Hz Hez); [exact Hh|reflexivity| | |].
  - pose proof (cdist_lt (hslot w sz key) z). lia.
  - intros p Hp Hon. unfold onpath in Hon. lia.
  - unfold onpath. lia.
Qed.

(** With the probe invariant: findIdx finds the key iff it is stored. *)
Lemma findIdx_iff t (S : nat -> Prop) key idx :
  twf sz t S -> S key -> (forall i, kat t i = Some key -> i < sz) -> idx < sz ->
  (kat t idx = Some key \/ kat t idx = None) ->
  (forall p, p < sz -> onpath (hslot w sz key) p idx -> exists k, kat t p = Some k /\ k <> key) ->
  kat t idx = None -> forall i, kat t i <> Some key.
Proof.
  intros Hw HS Hin Hidx _ Hpath Hnone i Hi.
  pose proof (Hin i Hi) as Hisz. pose proof (hs_lt key) as Hh.
  (* compare the positions of i and idx on the cycle starting at the hash slot *)
  assert (onpath (hslot w sz key) i idx \/ i = idx \/ onpath (hslot w sz key) idx i) as [Hc|[Hc|Hc]].
  { unfold onpath. lia. }
  - destruct (Hpath i Hisz Hc) as (k & Hk & Hne). congruence.
  - subst. congruence.
  - destruct (tw_probe _ _ _ Hw i key idx Hi HS Hc Hidx) as (k & Hk & _). congruence.
Qed.

(** *** findIdxForce: finds a key that is present, whatever the holes *)
Lemma probeForce_spec t key z : sz <= length t -> z < sz -> kat t z = Some key ->
  (forall i, kat t i = Some key -> i = z) ->
  forall d fuel hv, hv < sz -> d = cdist hv z -> d < fuel ->
  probeForce fuel t sz key hv = Ok z.
Proof.
  intros Hl Hz Hez Huniq.
  induction d as [|d IH]; intros fuel hv Hhv Hd Hfuel; (destruct fuel as [|fuel]; [lia|]); cbn [probeForce].
  - assert (hv = z) as -> by (apply cdist_0; auto).
    apply kat_Some in Hez as (e & He & Hk). rewrite (get_Some _ _ _ He). rewrite bind_Ok.
    rewrite bool_decide_eq_true_2 by exact Hk. reflexivity.
  - destruct (lookup_lt_is_Some_2 t hv) as [e He]; [lia|].
    rewrite (get_Some _ _ _ He). rewrite bind_Ok.
    assert (hv <> z) as Hne.
    { intros ->. unfold cdist in Hd. rewrite Nat.leb_refl in Hd. lia. }
    rewrite cdist_next in Hd by auto.
    rewrite bool_decide_eq_false_2.
    2:{ intros Hk. apply Hne, Huniq, kat_Some; eauto. }
    apply IH; [nxt hv; lia|lia|lia].
Qed.

Lemma findIdxForce_spec t key z mx ks : sz <= length t -> z < sz -> kat t z = Some key ->
  (forall i, kat t i = Some key -> i = z) ->
  findIdxForce w (mkHash t sz mx ks) key = Ok z.
Proof.
  intros Hl Hz Hez Hu. unfold findIdxForce. cbn [h_size h_tab]. pose proof (hs_lt key).
  eapply (probeForce_spec t key z); eauto. pose proof (cdist_lt (hslot w sz key) z). lia.
Qed.

(** *** Storing into a free slot, or overwriting a slot with the same key *)
Lemma twf_fill t (S : nat -> Prop) key idx e : twf sz t S -> idx < sz ->
  kat t idx = None -> (forall i, kat t i <> Some key) -> hk e = Some key ->
  (S key -> forall p, p < sz -> onpath (hslot w sz key) p idx -> exists k', kat t p = Some k' /\ S k') ->
  twf sz (<[idx:=e]> t) S.
Proof.
  intros [H1 H2 H3 H4] Hidx Hn Hnew He Hp.
  assert (idx < length t) as Hil by lia.
  split.
  - rewrite insert_length. exact H1.
  - intros i Hi. rewrite kat_insert by exact Hil. rewrite decide_False by lia. auto.
  - intros i j k. rewrite !kat_insert by exact Hil.
    destruct (decide (idx = i)) as [<-|Hi], (decide (idx = j)) as [<-|Hj]; intros Ha Hb; auto.
    + rewrite He in Ha. inversion Ha; subst. exfalso. apply (Hnew j). exact Hb.
    + rewrite He in Hb. inversion Hb; subst. exfalso. apply (Hnew i). exact Ha.
    + eapply H3; eauto.
  - intros i k p. rewrite !kat_insert by exact Hil.
    destruct (decide (idx = i)) as [<-|Hi]; intros Ha HS Hon Hps.
    + rewrite He in Ha. inversion Ha; subst. destruct (decide (idx = p)) as [<-|Hne].
      * unfold onpath in Hon. lia.
      * auto.
    + destruct (decide (idx = p)) as [<-|Hne].
      * destruct (H4 i k idx Ha HS Hon Hps) as (k' & Hk' & _). congruence.
      * eauto.
Qed.

Lemma twf_overwrite t (S : nat -> Prop) idx e : twf sz t S -> idx < length t ->
  hk e = kat t idx -> twf sz (<[idx:=e]> t) S.
Proof.
  intros [H1 H2 H3 H4] Hidx He.
  assert (forall i, kat (<[idx:=e]> t) i = kat t i) as Hk.
  { intros i. rewrite kat_insert by exact Hidx. destruct (decide (idx = i)) as [<-|]; auto. }
  split.
  - rewrite insert_length. exact H1.
  - intros i Hi. rewrite Hk. auto.
  - intros i j k. rewrite !Hk. eauto.
  - intros i k p. rewrite !Hk. eauto.
Qed.

Lemma tmap_fill t m key idx e : tmap t m -> idx < length t -> kat t idx = None ->
  (forall i, kat t i <> Some key) -> hk e = Some key ->
  tmap (<[idx:=e]> t) (<[key:=(hv1 e, hv2 e)]> m).
Proof.
  intros Hm Hl Hn Hnew He k p. split.
  - destruct (decide (key = k)) as [<-|Hne].
    + rewrite lookup_insert. intros H; inversion H; subst. exists idx, e.
      rewrite list_lookup_insert by exact Hl. auto.
    + rewrite lookup_insert_ne by exact Hne. intros H. apply Hm in H as (i & e' & H1 & H2 & H3).
      exists i, e'. rewrite list_lookup_insert_ne; auto. intros ->.
      unfold kat in Hn. rewrite H1 in Hn. simpl in Hn. congruence.
  - intros (i & e' & H1 & H2 & H3). destruct (decide (idx = i)) as [<-|Hne].
    + rewrite list_lookup_insert in H1 by exact Hl. inversion H1; subst e'.
      assert (key = k) as <- by congruence. rewrite lookup_insert. congruence.
    + rewrite list_lookup_insert_ne in H1 by exact Hne.
      assert (key <> k). { intros ->. apply (Hnew i). apply kat_Some. eauto. }
      rewrite lookup_insert_ne by assumption. apply Hm. eauto.
Qed.

Lemma tmap_overwrite t m key idx e : tmap t m -> idx < length t ->
  (forall i j k, kat t i = Some k -> kat t j = Some k -> i = j) ->
  kat t idx = Some key -> hk e = Some key ->
  tmap (<[idx:=e]> t) (<[key:=(hv1 e, hv2 e)]> m).
Proof.
  intros Hm Hl Hinj Hk He k p. split.
  - destruct (decide (key = k)) as [<-|Hne].
    + rewrite lookup_insert. intros H; inversion H; subst. exists idx, e.
      rewrite list_lookup_insert by exact Hl. auto.
    + rewrite lookup_insert_ne by exact Hne. intros H. apply Hm in H as (i & e' & H1 & H2 & H3).
      exists i, e'. rewrite list_lookup_insert_ne; auto. intros ->.
      unfold kat in Hk. rewrite H1 in Hk. simpl in Hk. congruence.
  - intros (i & e' & H1 & H2 & H3). destruct (decide (idx = i)) as [<-|Hne].
    + rewrite list_lookup_insert in H1 by exact Hl. inversion H1; subst e'.
      assert (key = k) as <- by congruence. rewrite lookup_insert. congruence.
    + rewrite list_lookup_insert_ne in H1 by exact Hne.
      assert (key <> k).
      { intros ->. apply Hne. eapply Hinj; [exact Hk|]. apply kat_Some. eauto. }
      rewrite lookup_insert_ne by assumption. apply Hm. eauto.
Qed.

(** Emptying a slot (leaving a hole). *)
Lemma tmap_empty t m key idx e : tmap t m -> idx < length t ->
  (forall i j k, kat t i = Some k -> kat t j = Some k -> i = j) ->
  kat t idx = Some key -> hk e = None -> tmap (<[idx:=e]> t) (delete key m).
Proof.
  intros Hm Hl Hinj Hk He k p. split.
  - intros H. apply lookup_delete_Some in H as [Hne H]. apply Hm in H as (i & e' & H1 & H2 & H3).
    exists i, e'. rewrite list_lookup_insert_ne; auto. intros ->.
    unfold kat in Hk. rewrite H1 in Hk. simpl in Hk. congruence.
  - intros (i & e' & H1 & H2 & H3). destruct (decide (idx = i)) as [<-|Hne].
    + rewrite list_lookup_insert in H1 by exact Hl. inversion H1; subst e'. congruence.
    + rewrite list_lookup_insert_ne in H1 by exact Hne. apply lookup_delete_Some. split.
      * intros ->. apply Hne. eapply Hinj; [exact Hk|]. apply kat_Some. eauto.
      * apply Hm. eauto.
Qed.

(** *** Backward-shift deletion *)
(** Slot [i] lies after the hole [e], up to and including [s], cyclically. *)
Definition after (e i s : nat) : Prop := (e < i /\ i <= s) \/ (s < e /\ (e < i \/ i <= s)).

(** [t'] differs from [t] only in slots below the current size. *)
Definition frame t t' : Prop := length t' = length t /\ forall i, sz <= i -> t' !! i = t !! i.

Lemma frame_refl t : frame t t.
Proof. split; auto. Qed.
Lemma frame_trans t1 t2 t3 : frame t1 t2 -> frame t2 t3 -> frame t1 t3.
Proof. intros [H1 H2] [H3 H4]. split; [congruence|]. intros i Hi. rewrite H4, H2 by exact Hi. reflexivity. Qed.
Lemma frame_insert t1 t2 i e : frame t1 t2 -> i < sz -> frame t1 (<[i:=e]> t2).
Proof.
  intros [H1 H2] Hi. split; [rewrite insert_length; exact H1|].
  intros j Hj. rewrite list_lookup_insert_ne by lia. auto.
Qed.

(** State of the loop: [t] with a hole at [e] (still physically occupied), scanned up to [s]. *)
Record sinv t (m : gmap nat payload) (e s : nat) : Prop := mkSinv {
  si_len : sz <= length t;
  si_out : forall i, sz <= i -> kat t i = None;
  si_e : e < sz;
  si_s : s < sz;
  si_occ : kat t e <> None;
  si_inj : forall i j k, i <> e -> j <> e -> kat t i = Some k -> kat t j = Some k -> i = j;
  si_map : forall k p, m !! k = Some p <->
      exists i en, i <> e /\ t !! i = Some en /\ hk en = Some k /\ (hv1 en, hv2 en) = p;
  si_path : forall i k p, i <> e -> kat t i = Some k -> onpath (hslot w sz k) p i -> p < sz -> kat t p <> None;
  si_run : forall i, i < sz -> after e i s -> kat t i <> None;
  si_scan : forall i k, i <> e -> after e i s -> kat t i = Some k -> ~ onpath (hslot w sz k) e i }.

Notation nx s := (hnext sz s).

(** When the slot after [s] is empty, punching the hole gives a well-formed table. *)
Lemma sinv_done t m e s E : sinv t m e s -> kat t (nx s) = None -> hk E = None ->
  twf sz (<[e:=E]> t) (fun _ => True) /\ tmap (<[e:=E]> t) m.
Proof.
  intros [H1 H2 H3 H4 H5 H6 H7 H8 Hrun H9] Hn HE. assert (e < length t) as Hel by lia. split.
  - split.
    + rewrite insert_length. exact H1.
    + intros i Hi. rewrite kat_insert by exact Hel. rewrite decide_False by lia. auto.
    + intros i j k. rewrite !kat_insert by exact Hel.
      destruct (decide (e = i)), (decide (e = j)); try congruence. intros Ha Hb. eapply H6; eauto.
    + intros i k p. rewrite !kat_insert by exact Hel.
      destruct (decide (e = i)) as [<-|Hi]; [congruence|]. intros Hk _ Hon Hp.
      assert (i < sz) as His.
      { destruct (Nat.lt_ge_cases i sz) as [|Hge]; [assumption|]. rewrite H2 in Hk by exact Hge. discriminate. }
      pose proof (hs_lt k) as Hh.
      destruct (decide (e = p)) as [<-|Hne].
      * exfalso.
        assert (after e i s \/ ~ after e i s) as [Ha|Ha] by (unfold after; lia).
        { exact (H9 i k ltac:(auto) Ha Hk Hon). }
        assert (nx s < sz) as Hns by (nxt s; lia).
        assert (nx s <> e) as Hnse by (intros E0; rewrite E0 in Hn; congruence).
        assert (nx s <> i) as Hnsi by (intros E0; rewrite E0 in Hn; congruence).
        apply (H8 i k (nx s)); auto.
        unfold onpath, after in *. nxt s; lia.
      * destruct (kat t p) as [k'|] eqn:Ek; [eauto|]. exfalso. eapply (H8 i k p); eauto.
  - intros k p. rewrite H7. split.
    + intros (i & en & Hi & He & Hk & Hp). exists i, en. rewrite list_lookup_insert_ne by auto. auto.
    + intros (i & en & He & Hk & Hp). destruct (decide (e = i)) as [<-|Hne].
      * rewrite list_lookup_insert in He by exact Hel. inversion He; subst. congruence.
      * rewrite list_lookup_insert_ne in He by exact Hne. exists i, en. auto.
Qed.

(** The code's three-way test says exactly that the hole lies on the probe path of the entry. *)
Lemma shift_cond ins e s : e <> s ->
  ((ins <=? e) && (e <=? s)) || ((e <=? s) && (s <? ins)) || ((s <? ins) && (ins <=? e)) = true
  <-> onpath ins e s.
Proof.
  intros Hne. unfold onpath. rewrite !orb_true_iff, !andb_true_iff, !Nat.leb_le, !Nat.ltb_lt. lia.
Qed.

Lemma sinv_move t m e s en k : sinv t m e s -> t !! nx s = Some en -> hk en = Some k -> nx s <> e ->
  onpath (hslot w sz k) e (nx s) -> sinv (<[e:=en]> t) m (nx s) (nx s).
Proof.
  intros [H1 H2 H3 H4 H5 H6 H7 H8 Hrun H9] Hen Hk Hne Hon.
  assert (e < length t) as Hel by lia. assert (nx s < sz) as Hns by (nxt s; lia).
  set (s' := nx s) in *. clearbody s'. assert (kat t s' = Some k) as Hks by (apply kat_Some; eauto).
  split.
  - rewrite insert_length. exact H1.
  - intros i Hi. rewrite kat_insert by exact Hel. rewrite decide_False by lia. auto.
  - exact Hns.
  - exact Hns.
  - rewrite kat_insert by exact Hel. rewrite decide_False by auto. congruence.
  - intros i j k'. rewrite !kat_insert by exact Hel.
    destruct (decide (e = i)) as [<-|Hi], (decide (e = j)) as [<-|Hj]; intros Hi' Hj' Ha Hb; auto.
    + exfalso. apply Hj'. eapply H6; eauto. congruence.
    + exfalso. apply Hi'. eapply H6; eauto. congruence.
    + eapply H6; eauto.
  - intros k' p. rewrite H7. split.
    + intros (i & en' & Hi & He & Hk' & Hp). destruct (decide (i = s')) as [->|Hne'].
      * exists e, en'. rewrite list_lookup_insert by exact Hel. rewrite Hen in He. inversion He; subst. auto.
      * exists i, en'. rewrite list_lookup_insert_ne by auto. auto.
    + intros (i & en' & Hi & He & Hk' & Hp). destruct (decide (e = i)) as [<-|Hne'].
      * rewrite list_lookup_insert in He by exact Hel. inversion He; subst en'. exists s', en. auto.
      * rewrite list_lookup_insert_ne in He by exact Hne'. exists i, en'. auto.
  - intros i k' p. rewrite !kat_insert by exact Hel. intros Hi.
    destruct (decide (e = p)) as [<-|Hp]; [congruence|].
    destruct (decide (e = i)) as [<-|Hei].
    + intros Hk' Hon' Hps. assert (k' = k) as -> by congruence. apply (H8 s' k p); auto.
      pose proof (hs_lt k). unfold onpath in *. lia.
    + intros Hk' Hon' Hps. apply (H8 i k' p); auto.
  - intros i Hi Ha. unfold after in Ha. lia.
  - intros i k' Hi Ha. unfold after in Ha. lia.
Qed.

Lemma sinv_skip t m e s en k : sinv t m e s -> t !! nx s = Some en -> hk en = Some k -> nx s <> e ->
  ~ onpath (hslot w sz k) e (nx s) -> sinv t m e (nx s).
Proof.
  intros [H1 H2 H3 H4 H5 H6 H7 H8 Hrun H9] Hen Hk Hne Hon.
  assert (nx s < sz) as Hns by (nxt s; lia).
  assert (kat t (nx s) = Some k) as Hks by (apply kat_Some; eauto).
  split; auto.
  - intros i Hi Ha. destruct (decide (i = nx s)) as [->|Hn]; [congruence|]. apply Hrun; [exact Hi|].
    unfold after in *. nxt s; lia.
  - intros i k' Hi Ha Hk'. destruct (decide (i = nx s)) as [->|Hn].
    + assert (k' = k) as -> by congruence. exact Hon.
    + apply H9; auto. 
      assert (i < sz). { destruct (Nat.lt_ge_cases i sz) as [|Hge]; [assumption|]. rewrite H2 in Hk' by exact Hge. discriminate. }
      unfold after in *. nxt s; lia.
Qed.

Lemma shiftLoop_spec m z : z < sz ->
  forall d fuel t e s, sinv t m e s -> kat t z = None -> kat t s <> None ->
  d = cdist s z -> d <= fuel ->
  exists t' e' en', shiftLoop w fuel t sz e s = Ok (t', e') /\ frame t t' /\ t' !! e' = Some en' /\ e' < sz /\
    forall E, hk E = None -> twf sz (<[e':=E]> t') (fun _ => True) /\ tmap (<[e':=E]> t') m.
Proof.
  intros Hz. induction d as [|d IH]; intros fuel t e s Hinv Hez Hs Hd Hf.
  { assert (s = z) as -> by (pose proof (si_s _ _ _ _ Hinv); apply cdist_0; auto). congruence. }
  destruct fuel as [|fuel]; [lia|]. cbn [shiftLoop]. cbv zeta.
  pose proof (si_s _ _ _ _ Hinv) as Hss. pose proof (si_e _ _ _ _ Hinv) as Hee. pose proof (si_len _ _ _ _ Hinv) as Hl.
  assert (nx s < sz) as Hns by (nxt s; lia).
  destruct (lookup_lt_is_Some_2 t (nx s)) as [en Hen]; [lia|].
  rewrite (get_Some _ _ _ Hen). rewrite bind_Ok.
  destruct (hk en) as [k|] eqn:Ek.
  2:{ destruct (lookup_lt_is_Some_2 t e) as [en' He']; [lia|].
      exists t, e, en'. split; [reflexivity|]. split; [apply frame_refl|]. split; [exact He'|]. split; [exact Hee|].
      intros E HE. eapply sinv_done; eauto. unfold kat. rewrite Hen. exact Ek. }
  assert (kat t (nx s) = Some k) as Hks by (apply kat_Some; eauto).
  assert (nx s <> z) as Hnz by congruence.
  assert (s <> z) as Hsz by congruence.
  assert (nx s <> e) as Hne.
  { intros E. destruct (decide (z = e)) as [->|Hze]; [exact (si_occ _ _ _ _ Hinv Hez)|].
    apply (si_run _ _ _ _ Hinv z Hz); [|exact Hez]. 
    unfold after. nxt s; lia. }
  assert (Hd' : d = cdist (nx s) z) by (rewrite cdist_next in Hd by auto; lia).
  destruct (((hslot w sz k <=? e) && (e <=? nx s)) || ((e <=? nx s) && (nx s <? hslot w sz k))
     || ((nx s <? hslot w sz k) && (hslot w sz k <=? e))) eqn:Ec.
  - apply shift_cond in Ec; [|auto]. rewrite set_Ok by lia. rewrite bind_Ok.
    destruct (IH fuel (<[e:=en]> t) (nx s) (nx s)) as (t' & e' & en' & Ht' & Hl' & He' & Hlt' & HE').
    + eapply sinv_move; eauto.
    + rewrite kat_insert by lia. rewrite decide_False; [exact Hez|]. intros ->.
      exact (si_occ _ _ _ _ Hinv Hez).
    + rewrite kat_insert by lia. rewrite decide_False by auto. congruence.
    + exact Hd'.
    + lia.
    + exists t', e', en'. split; [exact Ht'|]. split; [|auto].
      eapply frame_trans; [|exact Hl']. apply frame_insert; [apply frame_refl|exact Hee].
  - destruct (IH fuel t e (nx s)) as (t' & e' & en' & Ht' & Hl' & He' & Hlt' & HE').
    + eapply sinv_skip; eauto. intros Hc. apply shift_cond in Hc; [congruence|auto].
    + exact Hez.
    + congruence.
    + exact Hd'.
    + lia.
    + exists t', e', en'. auto.
Qed.

(** Erasing a stored key. *)
Lemma sinv_start t m key idx : twf sz t (fun _ => True) -> tmap t m -> kat t idx = Some key -> idx < sz ->
  sinv t (delete key m) idx idx.
Proof.
  intros [H1 H2 H3 H4] Hm Hk Hi. split; auto.
  - congruence.
  - intros i j k _ _. apply H3.
  - intros k p. rewrite lookup_delete_Some, (Hm k p). split.
    + intros [Hne (i & en & He & Hk' & Hp)]. exists i, en. split; [|auto]. intros ->.
      apply kat_Some in Hk as (e & He' & Hke). congruence.
    + intros (i & en & Hi' & He & Hk' & Hp). split; [|eauto]. intros ->. apply Hi'.
      eapply H3; [|exact Hk]. apply kat_Some. eauto.
  - intros i k p _ Hik Hon Hp. destruct (H4 i k p Hik I Hon Hp) as (k' & -> & _). congruence.
  - intros i _ Ha. unfold after in Ha. lia.
  - intros i k Hi' Ha. unfold after in Ha. lia.
Qed.

(** *** The operations on the whole accumulator *)
(** [hrep t m]: a well-formed table storing [m]. *)
Definition hrep t (m : gmap nat payload) : Prop := twf sz t (fun _ => True) /\ tmap t m.

Lemma twf_lt t S i k : twf sz t S -> kat t i = Some k -> i < sz.
Proof.
  intros Hw Hk. destruct (Nat.lt_ge_cases i sz) as [|Hge]; [assumption|].
  rewrite (tw_out _ _ _ Hw) in Hk by exact Hge. discriminate.
Qed.

Lemma hrep_empty_slot t m : hrep t m -> size m < sz -> exists z, z < sz /\ kat t z = None.
Proof. intros [[H1 H2 H3 H4] Hm] Hs. eapply empty_slot; eauto. Qed.

(** findIdx on a represented map. *)
Lemma findIdx_rep t m mx ks key : hrep t m -> size m < sz ->
  exists idx e, findIdx w (mkHash t sz mx ks) key = Ok idx /\ idx < sz /\ t !! idx = Some e /\
    (forall p, p < sz -> onpath (hslot w sz key) p idx -> exists k, kat t p = Some k) /\
    match m !! key with
    | Some p => hk e = Some key /\ (hv1 e, hv2 e) = p
    | None => hk e = None /\ forall i, kat t i <> Some key
    end.
Proof.
  intros Hrep Hsz. destruct (hrep_empty_slot t m Hrep Hsz) as (z & Hz & Hez).
  destruct Hrep as [Hw Hm]. pose proof (tw_len _ _ _ Hw) as Hl.
  destruct (findIdx_spec t key z mx ks Hl Hz Hez) as (idx & Hidx & Hlt & Hor & Hpath).
  destruct (lookup_lt_is_Some_2 t idx) as [e He]; [lia|].
  exists idx, e. split; [exact Hidx|]. split; [exact Hlt|]. split; [exact He|]. split.
  { intros p Hp Hon. destruct (Hpath p Hp Hon) as (k & Hk & _). eauto. }
  destruct Hor as [Hk|Hk].
  - apply kat_Some in Hk as (e' & He' & Hk). rewrite He in He'. inversion He'; subst e'.
    assert (m !! key = Some (hv1 e, hv2 e)) as -> by (apply Hm; eauto). auto.
  - assert (forall i, kat t i <> Some key) as Hnot.
    { apply (findIdx_iff t (fun _ => True) key idx Hw I); auto.
      intros i Hi. eapply twf_lt; eauto. }
    assert (m !! key = None) as -> by (apply (tmap_None t m key Hm); exact Hnot).
    split; [|exact Hnot]. unfold kat in Hk. rewrite He in Hk. exact Hk.
Qed.

Lemma find_rep t m mx ks key : hrep t m -> size m < sz ->
  match m !! key with
  | None => find w (mkHash t sz mx ks) key = Ok None
  | Some p => exists idx e, find w (mkHash t sz mx ks) key = Ok (Some idx) /\ idx < sz /\
      t !! idx = Some e /\ hk e = Some key /\ (hv1 e, hv2 e) = p
  end.
Proof.
  intros Hrep Hsz. destruct (findIdx_rep t m mx ks key Hrep Hsz) as (idx & e & Hidx & Hlt & He & _ & Hm).
  unfold find. rewrite Hidx, bind_Ok. cbn [h_tab]. rewrite (get_Some _ _ _ He), bind_Ok.
  destruct (m !! key) as [p|].
  - destruct Hm as [Hk Hp]. rewrite Hk. exists idx, e. auto.
  - destruct Hm as [Hk _]. rewrite Hk. reflexivity.
Qed.

(** Storing a new key at the slot found. *)
Lemma hrep_fill t m mx ks key idx e : hrep t m -> size m < sz -> m !! key = None ->
  findIdx w (mkHash t sz mx ks) key = Ok idx -> hk e = Some key ->
  hrep (<[idx:=e]> t) (<[key:=(hv1 e, hv2 e)]> m).
Proof.
  intros Hrep Hsz Hn Hidx Hk.
  destruct (findIdx_rep t m mx ks key Hrep Hsz) as (idx' & e' & Hidx' & Hlt & He & Hpath & Hm).
  rewrite Hidx in Hidx'. inversion Hidx'; subst idx'. rewrite Hn in Hm. destruct Hm as [Hke Hnot].
  destruct Hrep as [Hw Hmap]. pose proof (tw_len _ _ _ Hw).
  assert (kat t idx = None) as Hkn by (unfold kat; rewrite He; exact Hke).
  split.
  - eapply twf_fill; eauto. intros _ p Hp Hon. destruct (Hpath p Hp Hon) as (k & ?). eauto.
  - eapply tmap_fill; eauto. lia.
Qed.

Lemma hrep_overwrite t m key idx e e' : hrep t m -> t !! idx = Some e -> hk e = Some key -> hk e' = Some key ->
  hrep (<[idx:=e']> t) (<[key:=(hv1 e', hv2 e')]> m).
Proof.
  intros [Hw Hm] He Hk Hk'. assert (kat t idx = Some key) as Hkat by (apply kat_Some; eauto).
  pose proof (lookup_lt_Some _ _ _ He) as Hl.
  split.
  - eapply twf_overwrite; eauto. congruence.
  - eapply tmap_overwrite; eauto. apply (tw_inj _ _ _ Hw).
Qed.

Lemma hErase_rep t m mx ks key : hrep t m -> size m < sz ->
  exists t', hErase w (mkHash t sz mx ks) key = Ok (mkHash t' sz mx ks, bool_decide (is_Some (m !! key))) /\
    frame t t' /\ hrep t' (delete key m).
Proof.
  intros Hrep Hsz. destruct (findIdx_rep t m mx ks key Hrep Hsz) as (idx & e & Hidx & Hlt & He & _ & Hm).
  unfold hErase. rewrite Hidx, bind_Ok. cbn [h_tab]. rewrite (get_Some _ _ _ He), bind_Ok.
  destruct (m !! key) as [p|] eqn:Em.
  - destruct Hm as [Hk Hp]. rewrite Hk. cbn [h_size h_tab].
    destruct (hrep_empty_slot t m Hrep Hsz) as (z & Hz & Hez). destruct Hrep as [Hw Hmap].
    assert (kat t idx = Some key) as Hkat by (apply kat_Some; eauto).
    destruct (shiftLoop_spec (delete key m) z Hz _ (sz + 1) t idx idx
      (sinv_start t m key idx Hw Hmap Hkat Hlt) Hez ltac:(congruence) eq_refl) as (t' & e' & en' & Ht' & Hl' & He' & Hlt' & HE').
    { pose proof (cdist_lt idx z). lia. }
    rewrite Ht', bind_Ok. rewrite (get_Some _ _ _ He'), bind_Ok.
    rewrite set_Ok by (eapply lookup_lt_Some; eauto). rewrite bind_Ok.
    destruct (HE' (mkHent None (hv1 en') (hv2 en')) eq_refl) as [Hw' Hm'].
    eexists. split; [|split; [|split; [exact Hw'|exact Hm']]].
    + rewrite bool_decide_eq_true_2 by eauto. reflexivity.
    + apply frame_insert; [exact Hl'|exact Hlt'].
  - destruct Hm as [Hk _]. rewrite Hk. exists t. split; [|split; [apply frame_refl|]].
    + rewrite bool_decide_eq_false_2 by (intros [? ?]; discriminate). reflexivity.
    + rewrite delete_notin by exact Em. exact Hrep.
Qed.

Lemma hrep_empty t : sz <= length t -> (forall i e, t !! i = Some e -> hk e = None) -> hrep t ∅.
Proof.
  intros Hl Hc. assert (forall i, kat t i = None) as Hk.
  { intros i. unfold kat. destruct (t !! i) as [e|] eqn:E; [|reflexivity]. simpl. eauto. }
  split.
  - split; [exact Hl|auto| |]; intros *; rewrite Hk; discriminate.
  - intros k p. rewrite lookup_empty. split; [discriminate|].
    intros (i & e & He & Hke & _). rewrite (Hc i e He) in Hke. discriminate.
Qed.

Lemma tmap_empty_clean t : tmap t ∅ -> forall i e, t !! i = Some e -> hk e = None.
Proof.
  intros Hm i e He. destruct (hk e) as [k|] eqn:Ek; [|reflexivity].
  assert ((∅ : gmap nat payload) !! k = Some (hv1 e, hv2 e)) as H by (apply Hm; eauto).
  rewrite lookup_empty in H. discriminate.
Qed.
(** Number of entries of a map whose keys all occur in a list. *)
Lemma size_le_list (m : gmap nat payload) (l : list nat) :
  (forall k, is_Some (m !! k) -> k ∈ l) -> size m <= length l.
Proof.
  intros H. rewrite <- size_dom.
  transitivity (size (list_to_set l : gset nat)).
  - apply subseteq_size. intros k Hk. apply elem_of_list_to_set, H, elem_of_dom, Hk.
  - clear H. induction l as [|a l IH].
    + rewrite list_to_set_nil, size_empty. simpl. lia.
    + rewrite list_to_set_cons, size_union_alt, size_singleton. cbn [length].
      assert (size (list_to_set l ∖ {[a]} : gset nat) <= size (list_to_set l : gset nat)); [|lia].
      apply subseteq_size. set_solver.
Qed.

Lemma twf_weaken t (S S' : nat -> Prop) : twf sz t S -> (forall k, S' k -> S k) ->
  (forall i k, kat t i = Some k -> S' k) -> twf sz t S'.
Proof.
  intros [H1 H2 H3 H4] Hs Hall. split; auto. intros i k p Hk HS Hon Hp.
  destruct (H4 i k p Hk (Hs k HS) Hon Hp) as (k' & Hk' & _). eauto.
Qed.

Lemma twf_all t (S : nat -> Prop) : twf sz t S -> (forall i k, kat t i = Some k -> S k) ->
  twf sz t (fun _ => True).
Proof.
  intros [H1 H2 H3 H4] Hall. split; auto. intros i k p Hk _ Hon Hp.
  destruct (H4 i k p Hk (Hall i k Hk) Hon Hp) as (k' & Hk' & _). eauto.
Qed.

Lemma twf_none t S : twf sz t S -> twf sz t (fun _ => False).
Proof. intros [H1 H2 H3 H4]. split; auto. intros i k p _ []. Qed.

(** Punching a hole is harmless for keys in S when the removed key is not in S. *)
Lemma twf_hole t (S : nat -> Prop) idx key e : twf sz t S -> kat t idx = Some key -> ~ S key ->
  hk e = None -> twf sz (<[idx:=e]> t) S.
Proof.
  intros Hw Hk HS He. pose proof (twf_lt _ _ _ _ Hw Hk) as Hlt. destruct Hw as [H1 H2 H3 H4].
  assert (idx < length t) as Hl by lia. split.
  - rewrite insert_length. exact H1.
  - intros i Hi. rewrite kat_insert by exact Hl. destruct (decide (idx = i)); [exact He|auto].
  - intros i j k. rewrite !kat_insert by exact Hl.
    destruct (decide (idx = i)), (decide (idx = j)); try congruence. eauto.
  - intros i k p. rewrite !kat_insert by exact Hl. destruct (decide (idx = i)); [congruence|].
    intros Hk' HS' Hon Hp. destruct (H4 i k p Hk' HS' Hon Hp) as (k' & Hk'' & HS'').
    destruct (decide (idx = p)) as [<-|]; [|eauto]. exfalso. apply HS. congruence.
Qed.

Lemma findIdxForce_rep t S m mx ks key p : twf sz t S -> tmap t m -> m !! key = Some p ->
  exists idx e, findIdxForce w (mkHash t sz mx ks) key = Ok idx /\ idx < sz /\ t !! idx = Some e /\
    hk e = Some key /\ (hv1 e, hv2 e) = p.
Proof.
  intros Hw Hm Hp. pose proof Hp as Hp'. apply Hm in Hp as (i & e & He & Hk & Hpe).
  assert (kat t i = Some key) as Hkat by (apply kat_Some; eauto).
  exists i, e. split; [|split; [|auto]].
  - apply findIdxForce_spec; [apply (tw_len _ _ _ Hw)|eapply twf_lt; eauto|exact Hkat|].
    intros j Hj. eapply (tw_inj _ _ _ Hw); eauto.
  - eapply twf_lt; eauto.
Qed.
End Table.
