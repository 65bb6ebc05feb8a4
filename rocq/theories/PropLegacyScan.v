(** C38: the older prefix sum of utility.h. *)
From Verif Require Import LegacyScanModel ScanModel ConcProofs ScanProofs LegacyScanProofs InnerDriverStatements BaseProofs.
From Verif Require Import Base Spec.

(** C38 as far as it holds: if in has N cells - or the array is below the threshold of 2^17, and in has N - 1 cells -
    scan(in, out, N) always ends, faults nowhere and leaves in[0]+...+in[i-1] in out[i], i < N. *)
Theorem C38_legacy_scan_partial :
  forall T (zero : T) (plus : T -> T -> T) top src N nt out,
  (forall x y z, plus x (plus y z) = plus (plus x y) z) -> (forall x y, plus x y = plus y x) -> (forall x, plus zero x = x) ->
  1 <= nt <= N -> N <= length out ->
  N <= length src \/ ((N.of_nat N < 2 ^ 17)%N /\ N - 1 <= length src) ->
  lScan_always zero plus top src N nt out
    (((fun i => Some (fold_left plus (take i src) zero)) <$> seq 0 N) ++ drop N out).
Proof.
  intros T zero plus top src N nt out Ha Hc Hz Hnt Ho Hin. unfold lScan_always.
  destruct (lIsSeq N) eqn:E.
  - apply seqScan_ok; try assumption; [lia|]. destruct Hin as [|[]]; lia.
  - unfold lIsSeq in E. apply N.ltb_ge in E. apply lregion_ok; try assumption. destruct Hin as [|[Hl _]]; [assumption|]. exfalso. apply N.lt_nge in Hl. contradiction.
Qed.
Print Assumptions C38_legacy_scan_partial.

(** No thread can be in conflict with another in the second parallel region. *)
Theorem C38_region_race_free :
  forall T (zero : T) (plus : T -> T -> T) top src N nt out,
  (forall x y z, plus x (plus y z) = plus (plus x y) z) -> (forall x y, plus x y = plus y x) -> (forall x, plus zero x = x) ->
  1 <= nt <= N -> N <= length out -> N <= length src ->
  region_race_free (lRegion zero plus top src N nt) tt (lMem zero out nt) (replicate nt tt).
Proof. intros. apply lregion_ok; assumption. Qed.
Print Assumptions C38_region_race_free.

(** Finding: from 2^17 on the last thread also reads in[N - 1]; a caller handing over the N - 1 cells the
    sequential version needs has undefined behaviour.  (CSR::Intersect is such a caller.) *)
Theorem C38_reads_last_refuted :
  forall T (zero : T) (plus : T -> T -> T) top src N nt out,
  (forall x y z, plus x (plus y z) = plus (plus x y) z) -> (forall x y, plus x y = plus y x) -> (forall x, plus zero x = x) ->
  1 <= nt <= N -> N <= length out -> (2 ^ 17 <= N.of_nat N)%N -> length src = N - 1 ->
  lIsSeq N = false /\ region_outcome (lRegion zero plus top src N nt) tt (lMem zero out nt) (replicate nt tt) (Err OutOfBounds) /\
  ~ (exists out', lScan_always zero plus top src N nt out out').
Proof.
  intros T zero plus top src N nt out Ha Hc Hz Hnt Ho HN Hs.
  assert (E : lIsSeq N = false) by (unfold lIsSeq; apply N.ltb_ge; exact HN).
  pose proof (lregion_fails zero plus top Ha Hc Hz src N nt Hnt out Ho Hs) as Hf. split; [exact E|]. split; [exact Hf|].
  intros (out' & H). unfold lScan_always in H. rewrite E in H. destruct H as (m & H & _).
  apply (region_always_outcome _ _ _ _ _ _ _ _ H) in Hf. discriminate.
Qed.
Print Assumptions C38_reads_last_refuted.

(** Finding: the variable tnum is stored to by all threads at once.  Every store is of the same number, so the
    variable ends with it, but it is a data race. *)
Theorem C38_tnum_race_refuted :
  forall nt m, 2 <= nt -> is_Some (m !! tt) ->
  (exists m', always (m, tnumPhase nt) m' (replicate nt tt) /\ m' !! tt = Some nt) /\
  race (m, tnumPhase nt) /\ ~ race_free (m, tnumPhase nt).
Proof.
  intros nt m Hnt Hm. split.
  { assert (Hc : compat (replicate nt [@EWr unit nat tt nt])).
    { intros t u et eu l v Htu Het Heu Hin. apply lookup_replicate in Het as [-> _]. apply lookup_replicate in Heu as [-> _].
      apply elem_of_list_singleton in Hin. injection Hin as -> ->. split.
      - intros pre post E. destruct pre as [|e [|e' pre]]; discriminate.
      - intros v' Hv. apply elem_of_list_singleton in Hv. congruence. }
    exists (final_mem (replicate nt [EWr tt nt]) m). split.
    - apply phase_always; [unfold tnumPhase; rewrite !replicate_length; reflexivity| | |exact Hc].
      + unfold tnumPhase. rewrite !replicate_length. reflexivity.
      + intros t p evs r Hp He Hr. apply lookup_replicate in Hp as [-> _]. apply lookup_replicate in He as [-> _].
        apply lookup_replicate in Hr as [-> _]. eexists. constructor; [exact Hm|constructor].
    - rewrite (final_mem_in _ _ _ 0 [EWr tt nt] nt Hc); [apply lookup_insert|apply lookup_replicate_2; lia|left]. } assert (H : race (m, tnumPhase nt)).
  { exists 0, 1, (Wr tt nt (Ret tt)), (Wr tt nt (Ret tt)), tt, true, true. split; [lia|]. unfold tnumPhase. cbn [snd].
    rewrite !lookup_replicate_2 by lia. auto. }
  split; [exact H|]. intros Hf. apply (Hf (m, tnumPhase nt)); [apply rtc_refl|exact H].
Qed.
Print Assumptions C38_tnum_race_refuted.

Definition bigN : nat := N.to_nat (2 ^ 17).
(** The hypotheses can be met on both sides of the threshold. *)
Example C38_example :
  lScan_always 0 Nat.add 255 [4; 5; 6] 4 3 [None; None; None; Some 7; Some 9] [Some 0; Some 4; Some 9; Some 15; Some 9] /\
  lIsSeq bigN = false /\
  (exists out', lScan_always 0 Nat.add 255 (replicate bigN 1) bigN 4 (replicate bigN None) out' /\ out' !! (bigN - 1) = Some (Some (bigN - 1))) /\
  region_outcome (lRegion 0 Nat.add 255 (replicate (bigN - 1) 1) bigN 4) tt (lMem 0 (replicate bigN None) 4) (replicate 4 tt) (Err OutOfBounds).
Proof.
  assert (HB : N.of_nat bigN = (2 ^ 17)%N) by (unfold bigN; apply N2Nat.id).
  assert (HB2 : 4 <= bigN) by (unfold bigN; change (2 ^ 17)%N with 131072%N; lia).
  assert (E : lIsSeq bigN = false) by (unfold lIsSeq; rewrite HB; reflexivity).
  split; [apply (C38_legacy_scan_partial nat 0 Nat.add 255 [4; 5; 6] 4 3 [None; None; None; Some 7; Some 9]); simpl; intros; try lia; right; lia|].
  split; [exact E|]. generalize dependent bigN. intros B HB E HB2. split.
  - eexists. split; [apply C38_legacy_scan_partial; intros; try lia; rewrite ?replicate_length; lia|].
    rewrite lookup_app_l by (rewrite fmap_length, seq_length; lia). rewrite list_lookup_fmap, lookup_seq_lt by lia. simpl. do 2 f_equal.
    rewrite take_replicate, Nat.min_l by lia. generalize (B - 1). intros k. clear.
    assert (forall a, fold_left Nat.add (replicate k 1) a = a + k) as H; [|apply H]. induction k as [|k IH]; intros a; simpl; [lia|]. rewrite IH. lia.
  - apply (C38_reads_last_refuted nat 0 Nat.add 255 (replicate (B - 1) 1) B 4 (replicate B None)); intros; rewrite ?replicate_length; lia.
Qed.
