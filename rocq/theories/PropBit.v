(** C63: the bit map is a set of positions. *)
From Verif Require Import BaseProofs BitModel BitSpec BitProofs.
From Verif Require Import Base.

(** A new map of [n] bits, after reset and any calls of set_bit, answers get_bit with membership; no call leaves the array. *)
Theorem C63_set (n : nat) (ps : list nat) : Forall (fun p => p < n) ps ->
  exists m0 m, bmReset (bmNew n) = Ok m0 /\ foldM bmSet ps m0 = Ok m /\ ready m /\ n <= 64 * length m /\
    forall p, p < n -> bmGet m p = Ok (bool_decide (p ∈ ps)).
Proof.
  intros Hf. assert (Hn : n <= 64 * ((n + 63) / 64)).
  { pose proof (Nat.div_mod_eq (n + 63) 64). pose proof (Nat.mod_upper_bound (n + 63) 64 ltac:(lia)). lia. }
  exists (replicate (length (bmNew n)) (Some 0%N)). unfold bmNew in *. rewrite bmReset_ok, replicate_length.
  destruct (bmSets_ok (replicate ((n + 63) / 64) (Some 0%N)) ps) as (m & E & R & L & S).
  - apply Forall_replicate. exists 0%N. split; [reflexivity|lia].
  - rewrite replicate_length. eapply Forall_impl; [exact Hf|]. intros p Hp. cbv beta in *. lia.
  - rewrite replicate_length in *. exists m. split_and!; try assumption; [reflexivity|lia|]. intros p Hp.
    destruct (bmGet_isset m p R) as (b & -> & Hb); [lia|]. f_equal. specialize (S p ltac:(lia)).
    assert (N0 : ~ isset (replicate ((n + 63) / 64) (Some 0%N)) p).
    { intros (x & Hx & Ht). apply lookup_replicate_1 in Hx as [Hx _]. injection Hx as ->. rewrite N.bits_0 in Ht. discriminate. }
    destruct (bool_decide (p ∈ ps)) eqn:D.
    + apply bool_decide_eq_true in D. apply Hb, S. left. exact D.
    + apply bool_decide_eq_false in D. destruct b; [|reflexivity]. exfalso. destruct (proj1 S (proj1 Hb eq_refl)); contradiction.
Qed.

(** Below 2^32 get_next_bit returns the next position in the set, or -1 (here [None]) when there is none. *)
Theorem C63_next (m : list (option N)) (pos : nat) : ready m -> pos < 64 * length m -> (64 * N.of_nat (length m) <= 2 ^ 64)%N ->
  (N.of_nat pos < 2 ^ 32)%N ->
  exists r, bmNext m pos = Ok r /\
    match r with
    | None => forall p, pos < p -> ~ isset m p
    | Some n => exists q, n = N.of_nat q /\ pos < q /\ isset m q /\ forall p, pos < p < q -> ~ isset m p
    end.
Proof.
  intros H1 H2 H3 H4. destruct (bmNext_ok m pos H1 H2 H3) as [[E G]|(q & Hq & Hs & Hn & E)]; eexists; (split; [exact E|]); [exact G|].
  exists q. split_and!; try assumption. destruct (_ =? _); [reflexivity|]. rewrite N.div_small by exact H4. lia.
Qed.

(** A copy holds the same bits. *)
Theorem C63_copy (m : list (option N)) : ready m -> bmClone m = Ok m.
Proof. apply bmCopy_ok. Qed.

(** FINDING.  From 2^32 on a next bit in a later word is reported too low: the mask 0xffffffc0 also clears the bits of
    the position from 2^32 on. *)
Theorem C63_large_refuted (m : list (option N)) (pos q : nat) : ready m -> (64 * N.of_nat (length m) <= 2 ^ 64)%N ->
  (2 ^ 32 <= N.of_nat pos)%N -> pos < q -> pos / 64 <> q / 64 -> isset m q -> (forall p, pos < p < q -> ~ isset m p) ->
  exists n, bmNext m pos = Ok (Some n) /\ n <> N.of_nat q /\ n = (N.of_nat q - N.of_nat pos / 2 ^ 32 * 2 ^ 32)%N.
Proof.
  intros H1 H2 H3 Hq Hw Hs Hn.
  assert (Hl : q < 64 * length m).
  { destruct Hs as (x & Hx & _). apply lookup_lt_Some in Hx. pose proof (Nat.div_mod_eq q 64). pose proof (Nat.mod_upper_bound q 64 ltac:(lia)). lia. }
  destruct (bmNext_ok m pos H1 ltac:(lia) H2) as [[_ G]|(q' & Hq' & Hs' & Hn' & E)]; [destruct (G q Hq Hs)|].
  assert (q' = q).
  { destruct (Nat.lt_trichotomy q' q) as [L|[L|L]]; [destruct (Hn q' ltac:(lia) Hs')|exact L|destruct (Hn' q ltac:(lia) Hs)]. }
  subst q'. destruct (Nat.eqb_spec (q / 64) (pos / 64)) as [|_]; [congruence|]. eexists. split; [exact E|]. split; [|reflexivity].
  assert (1 <= N.of_nat pos / 2 ^ 32)%N by (apply N.div_le_lower_bound; lia).
  pose proof (N.mul_div_le (N.of_nat pos) (2 ^ 32) ltac:(lia)). lia.
Qed.

(** FINDING.  A new map is not empty: its words have never been written until reset is called. *)
Theorem C63_new_refuted (n p : nat) : p < n -> bmGet (bmNew n) p = Err Uninit /\ bmSet (bmNew n) p = Err Uninit.
Proof.
  intros H. assert (Hi : p / 64 < (n + 63) / 64).
  { apply Nat.div_lt_upper_bound; [lia|]. pose proof (Nat.div_mod_eq (n + 63) 64). pose proof (Nat.mod_upper_bound (n + 63) 64 ltac:(lia)). lia. }
  unfold bmGet, bmSet, bmNew, getI. rewrite lookup_replicate_2 by exact Hi. split; reflexivity.
Qed.

Example C63_inputs : Forall (fun p => p < 130) [3; 64; 129; 3] /\ ready [Some 8%N; Some 1%N; Some 2%N].
Proof. split; repeat constructor; eexists; (split; [reflexivity|lia]). Qed.
Example C63_run : exists m0, bmReset (bmNew 130) = Ok m0 /\ foldM bmSet [3; 64; 129; 3] m0 = Ok [Some 8%N; Some 1%N; Some 2%N] /\
  bmNext [Some 8%N; Some 1%N; Some 2%N] 0 = Ok (Some 3%N) /\ bmNext [Some 8%N; Some 1%N; Some 2%N] 3 = Ok (Some 64%N) /\
  bmNext [Some 8%N; Some 1%N; Some 2%N] 64 = Ok (Some 129%N) /\ bmNext [Some 8%N; Some 1%N; Some 2%N] 129 = Ok None.
Proof. eexists. split_and!; vm_compute; reflexivity. Qed.
(** The case of the finding: 2^26 empty words, then an empty word and one with its lowest bit.  The next bit after 2^32 is
    2^32 + 64; the answer is 64. *)
Definition bigMap (k : nat) : list (option N) := replicate k (Some 0%N) ++ [Some 0%N; Some 1%N].
Example C63_large (k : nat) : N.of_nat k = (2 ^ 26)%N ->
  ready (bigMap k) /\ (64 * N.of_nat (length (bigMap k)) <= 2 ^ 64)%N /\ (2 ^ 32 <= N.of_nat (64 * k))%N /\ isset (bigMap k) (64 * k + 64) /\
  bmNext (bigMap k) (64 * k) = Ok (Some 64%N).
Proof.
  intros Hk. assert (HR : ready (bigMap k)).
  { apply Forall_app. split; [apply Forall_replicate; exists 0%N; split; [reflexivity|lia]|]. repeat constructor; eexists; (split; [reflexivity|lia]). }
  assert (HL : (64 * N.of_nat (length (bigMap k)) <= 2 ^ 64)%N) by (unfold bigMap; rewrite app_length, replicate_length; simpl length; lia).
  assert (D1 : 64 * k / 64 = k) by (rewrite Nat.mul_comm; apply Nat.div_mul; lia).
  assert (D2 : (64 * k + 64) / 64 = k + 1) by (replace (64 * k + 64) with ((k + 1) * 64) by lia; apply Nat.div_mul; lia).
  assert (HS : isset (bigMap k) (64 * k + 64)).
  { exists 1%N. rewrite D2. replace ((64 * k + 64) mod 64) with 0.
    - split; [|reflexivity]. unfold bigMap. rewrite lookup_app_r by (rewrite replicate_length; lia). rewrite replicate_length. replace (k + 1 - k) with 1 by lia. reflexivity.
    - replace (64 * k + 64) with ((k + 1) * 64) by lia. symmetry. apply Nat.mod_mul. lia. }
  split_and!; try assumption; [lia|].
  destruct (C63_large_refuted (bigMap k) (64 * k) (64 * k + 64) HR HL) as (n & E & _ & Hn); try assumption; try lia.
  - intros p Hp (x & Hx & Ht). assert (Ep : p / 64 = k).
    { apply Nat.le_antisymm; [apply Nat.lt_succ_r, Nat.div_lt_upper_bound; lia|rewrite <- D1 at 1; apply Nat.div_le_mono; lia]. }
    rewrite Ep in Hx. unfold bigMap in Hx. rewrite lookup_app_r in Hx by (rewrite replicate_length; lia). rewrite replicate_length, Nat.sub_diag in Hx.
    injection Hx as <-. rewrite N.bits_0 in Ht. discriminate.
  - rewrite E, Hn. do 2 f_equal. replace (N.of_nat (64 * k)) with (2 ^ 32)%N by lia. rewrite N.div_same by lia. lia.
Qed.

Print Assumptions C63_set.
Print Assumptions C63_next.
Print Assumptions C63_copy.
Print Assumptions C63_large_refuted.
Print Assumptions C63_new_refuted.
