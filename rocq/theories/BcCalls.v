(** The product calls of the betweenness-centrality program. *)
From Coq Require Import NArith ZArith QArith.Qcanon.
From stdpp Require Import numbers list_numbers gmap.
From Verif Require Import BaseProofs ConcProofs McaProofs MsaModel HashModel HeapModel DriverModel AlgModel DriverStatements Assemble GraphProofs GraphCalls BcWalks BcModel BcProofs.
From Verif Require Import Base Spec.

(** The pairs (f_plain, f_cmpl) of BCAllGrb.cpp 674-712 other than the heap, for [n] vertices and [s] sources; with the
    object sizes for which the scratch memory has less than 2^64 bytes. *)
Inductive bcCalls (n s : nat) : (csr Qc -> csr Qc -> csr Qc -> csr Qc -> Prop) -> (csr Qc -> csr Qc -> csr Qc -> csr Qc -> Prop) -> Prop :=
| bc_msa1 two sz : (0 < sz)%N -> ((N.of_nat s + 1) * (sz + 1) + 8 < 2 ^ 64)%N ->
    bcCalls n s (yields1p (msaAlg fSecond Qcplus two sz)) (yields1p (msaAlgC fSecond Qcplus two true sz))
| bc_msa2 two sz : (0 < sz)%N -> ((N.of_nat s + 1) * (sz + 1) + 8 < 2 ^ 64)%N ->
    bcCalls n s (yields2p (msaAlg fSecond Qcplus two sz)) (yields2p (msaAlgC fSecond Qcplus two true sz))
| bc_hash1 w sK sN : (0 < sK)%N -> (0 < sN)%N -> fits w (s + n * s) -> ((8 * (N.of_nat (s + n * s) + 2) + 1) * N.max sK sN < 2 ^ 64)%N -> (N.lcm sK sN + 8 < 2 ^ 64)%N ->
    bcCalls n s (yields1p (hashAlg fSecond Qcplus w sK sN)) (yields1p (hashAlgC fSecond Qcplus w sK sN true))
| bc_hash2 w sK sN : (0 < sK)%N -> (0 < sN)%N -> fits w (s + n * s) -> ((8 * (N.of_nat (s + n * s) + 2) + 1) * N.max sK sN < 2 ^ 64)%N -> (N.lcm sK sN + 8 < 2 ^ 64)%N ->
    bcCalls n s (yields2p (hashAlg fSecond Qcplus w sK sN)) (yields2p (hashAlgC fSecond Qcplus w sK sN true)).

Definition st4 {V} (A B M : csr V) : gmap nat (obj V) := <[0 := OMat A]> (<[1 := OMat B]> {[ 2 := OMat M ]}).
Lemma insertq_inj {V} (m : gmap nat (obj V)) i C C' : <[i := OMat C]> m = <[i := OMat C']> m -> C = C'.
Proof. intros E. apply (f_equal (lookup i)) in E. rewrite !lookup_insert in E. congruence. Qed.
Lemma yields1p_det {V} (alg : rowalg V) A B M C C' : yields1p alg A B M C -> yields1p alg A B M C' -> C = C'.
Proof.
  intros H H'. apply (insertq_inj (st4 A B M) 3). apply (driver1p_unique alg 0 1 2 3 1 sc0 (st4 A B M)); [apply H|apply H']; try reflexivity; lia.
Qed.
Lemma yields2p_det {V} (alg : rowalg V) A B M C C' : yields2p alg A B M C -> yields2p alg A B M C' -> C = C'.
Proof.
  intros H H'. apply (insertq_inj (st4 A B M) 3). apply (driver2p_unique alg 0 1 2 3 4 1 sc0 (st4 A B M)); [apply H|apply H']; try reflexivity; lia.
Qed.

Lemma shaped_row_len n s (B : csr Qc) i : shaped n s B -> i < n -> length (row_cols B i) <= s.
Proof.
  intros HB Hi. pose proof (seq_length s 0) as Hsl. rewrite <- Hsl. clear Hsl. apply submseteq_length, NoDup_submseteq; [eapply shaped_nodup; eauto|].
  intros w Hw. apply elem_of_seq. pose proof HB as (Hwf & _ & _ & Hc). pose proof (row_cols_range B i w Hwf Hw). lia.
Qed.
Lemma touched_len n s (A B : csr Qc) i : good n A -> shaped n s B -> i < n -> length (touched_cols A B i) <= n * s.
Proof.
  intros HA HB Hi. pose proof (good_row_len n A i HA Hi) as Hl. unfold row_cols in Hl. rewrite fmap_length in Hl. unfold touched_cols.
  assert (Hk : forall k a, (k, a) ∈ row_entries A i -> k < n). { intros k a Hin. eapply (good_col n A i); [exact HA|exact Hi|]. apply elem_of_list_fmap. exists (k, a). auto. }
  transitivity (length (row_entries A i) * s); [|apply Nat.mul_le_mono_r; exact Hl]. clear Hl. induction (row_entries A i) as [|[k a] l IH]; [reflexivity|].
  rewrite fmap_cons, mjoin_cons, app_length. cbn [fst length]. pose proof (shaped_row_len n s B k HB ltac:(eapply Hk; left)). specialize (IH ltac:(intros; eapply Hk; right; eassumption)). lia.
Qed.
Lemma bc_compat n s (A B M : csr Qc) : good n A -> shaped n s B -> shaped n s M -> compatible A B M.
Proof. intros (H1 & _ & H2 & H3) (H4 & _ & H5 & H6) (H7 & _ & H8 & H9). constructor; congruence || assumption. Qed.

Lemma bcCalls_ok n s mxmP mxmC : 1 <= n -> bcCalls n s mxmP mxmC -> plainCall n s mxmP /\ complCall n s mxmC.
Proof.
  intros Hn Hcalls.
  assert (Hd : forall M, shaped n s M -> distinct_rows M). { intros M HM i Hi. eapply shaped_nodup; [exact HM|]. destruct HM as (_ & _ & <- & _). exact Hi. }
  destruct Hcalls as [two sz X1 X2|two sz X1 X2|w sK sN X1 X2 X3 X4 X5|w sK sN X1 X2 X3 X4 X5].
  1,2: split; intros A B M HA HB HM; pose proof (bc_compat n s A B M HA HB HM) as HC; pose proof HA as (_ & _ & HrA & _); pose proof HB as (_ & _ & _ & HcB).
  - destruct (msa_drivers fSecond Qcplus A B M two sz HC (Hd M HM) ltac:(lia) X1 ltac:(rewrite HcB; exact X2)) as (C & HP & H1 & H2). split; [eauto|]. intros C' HY'. rewrite (yields1p_det _ _ _ _ _ _ HY' H1). exact HP.
  - destruct (msaC_drivers fSecond Qcplus A B M two true sz HC (Hd M HM) ltac:(lia) X1 ltac:(rewrite HcB; exact X2)) as (C & HP & H1 & H2). split; [eauto|]. intros C' HY'. rewrite (yields1p_det _ _ _ _ _ _ HY' H1). exact HP.
  - destruct (msa_drivers fSecond Qcplus A B M two sz HC (Hd M HM) ltac:(lia) X1 ltac:(rewrite HcB; exact X2)) as (C & HP & H1 & H2). split; [eauto|]. intros C' HY'. rewrite (yields2p_det _ _ _ _ _ _ HY' H2). exact HP.
  - destruct (msaC_drivers fSecond Qcplus A B M two true sz HC (Hd M HM) ltac:(lia) X1 ltac:(rewrite HcB; exact X2)) as (C & HP & H1 & H2). split; [eauto|]. intros C' HY'. rewrite (yields2p_det _ _ _ _ _ _ HY' H2). exact HP.
  - assert (Xf : fits w s) by (destruct X3 as [Xa Xb]; split; [exact Xa|lia]).
    split; intros A B M HA HB HM; pose proof (bc_compat n s A B M HA HB HM) as HC; pose proof HA as (_ & _ & HrA & _);
      (assert (Hm : forall i, i < rows A -> length (row_cols M i) <= s) by (intros i Hi; eapply shaped_row_len; [exact HM|lia]));
      (assert (Ht : forall i, i < rows A -> length (touched_cols A B i) <= n * s) by (intros i Hi; eapply touched_len; [exact HA|exact HB|lia])).
    + destruct (hash_drivers fSecond Qcplus A B M w sK sN s HC (Hd M HM) ltac:(lia) X1 X2 Hm Xf ltac:(nia) X5) as (C & HP & H1 & H2). split; [eauto|]. intros C' HY'. rewrite (yields1p_det _ _ _ _ _ _ HY' H1). exact HP.
    + destruct (hashC_drivers fSecond Qcplus A B M w sK sN true s (n * s) HC (Hd M HM) ltac:(lia) X1 X2 Hm Ht X3 X4 X5) as (C & HP & H1 & H2). split; [eauto|]. intros C' HY'. rewrite (yields1p_det _ _ _ _ _ _ HY' H1). exact HP.
  - assert (Xf : fits w s) by (destruct X3 as [Xa Xb]; split; [exact Xa|lia]).
    split; intros A B M HA HB HM; pose proof (bc_compat n s A B M HA HB HM) as HC; pose proof HA as (_ & _ & HrA & _);
      (assert (Hm : forall i, i < rows A -> length (row_cols M i) <= s) by (intros i Hi; eapply shaped_row_len; [exact HM|lia]));
      (assert (Ht : forall i, i < rows A -> length (touched_cols A B i) <= n * s) by (intros i Hi; eapply touched_len; [exact HA|exact HB|lia])).
    + destruct (hash_drivers fSecond Qcplus A B M w sK sN s HC (Hd M HM) ltac:(lia) X1 X2 Hm Xf ltac:(nia) X5) as (C & HP & H1 & H2). split; [eauto|]. intros C' HY'. rewrite (yields2p_det _ _ _ _ _ _ HY' H2). exact HP.
    + destruct (hashC_drivers fSecond Qcplus A B M w sK sN true s (n * s) HC (Hd M HM) ltac:(lia) X1 X2 Hm Ht X3 X4 X5) as (C & HP & H1 & H2). split; [eauto|]. intros C' HY'. rewrite (yields2p_det _ _ _ _ _ _ HY' H2). exact HP.
Qed.

(** ** Counts of shortest paths *)
Lemma walk_eb {V} (A : csr V) u w l : walk (edge A) u w l <-> walk (fun u v => eb A u v = true) u w l.
Proof. split; intros H; induction H; econstructor; eauto; apply eb_true; assumption. Qed.
Lemma shortest_eb {V} (A : csr V) u w l : shortest (edge A) u w l <-> shortest (fun u v => eb A u v = true) u w l.
Proof. unfold shortest. rewrite walk_eb. split; intros [X Y]; (split; [exact X|]); intros l' Hl'; apply Y, walk_eb, Hl'. Qed.
Lemma counts_sp n (A : csr Qc) u t : good n A -> u < n -> counts (shortest (edge A) u t) (sig n (eb A) u t).
Proof.
  intros HA Hu. destruct (sig_counts n (eb A) (eb_range n A HA) u t Hu) as (ls & H1 & H2 & H3). exists ls. split; [exact H1|]. split; [|exact H3]. intros l. rewrite H2, shortest_eb. reflexivity.
Qed.
Lemma counts_spv n (A : csr Qc) u t v : good n A -> u < n -> counts (fun l => shortest (edge A) u t l /\ v ∈ l) (sigv n (eb A) u t v).
Proof.
  intros HA Hu. destruct (sigv_counts n (eb A) (eb_range n A HA) u t v Hu) as (ls & H1 & H2 & H3). exists ls. split; [exact H1|]. split; [|exact H3]. intros l. rewrite H2, shortest_eb. reflexivity.
Qed.

Lemma holds_unique n m C C' f : holds n m C f -> holds n m C' f -> C = C'.
Proof.
  intros H H'. pose proof (holds_shaped _ _ _ _ H) as S1. pose proof (holds_shaped _ _ _ _ H') as S2. destruct H as (W & So & R & K & E). destruct H' as (W' & So' & R' & K' & E').
  apply wf_ext; try assumption; try congruence. intros i Hi. rewrite R in Hi.
  assert (Hk : row_cols C i = row_cols C' i).
  { apply SeqStatements.sorted_unique; [apply So; lia|apply So'; lia|]. intros j.
    assert (Hiff : forall X, (forall i j, i < n -> j < m -> ent X i j = f i j) -> wf X -> cols X = m -> j ∈ row_cols X i <-> j < m /\ f i j <> None).
    { intros X EX WX KX. split.
      - intros Hin. pose proof (row_cols_range X i j WX Hin) as Hj. split; [lia|]. rewrite <- EX by lia. intros Hno. apply ent_None in Hno. contradiction.
      - intros [Hj Hne]. destruct (decide (j ∈ row_cols X i)) as [|Hno]; [assumption|]. apply ent_None in Hno. rewrite EX in Hno by lia. contradiction. }
    rewrite (Hiff C E W K), (Hiff C' E' W' K'). reflexivity. }
  unfold row_cols in Hk. apply list_eq. intros q. assert (Hq := f_equal (fun l => l !! q) Hk). cbn beta in Hq. rewrite !list_lookup_fmap in Hq.
  destruct (row_entries C i !! q) as [[j v]|] eqn:E1, (row_entries C' i !! q) as [[j' v']|] eqn:E2; cbn in Hq; try discriminate; [|reflexivity]. injection Hq as <-.
  apply elem_of_list_lookup_2 in E1, E2. assert (Hj : j < m) by (rewrite <- K; eapply row_entries_range; eauto).
  apply (ent_Some n m C i j v S1 Hi) in E1. apply (ent_Some n m C' i j v' S2 Hi) in E2. rewrite E in E1 by lia. rewrite E' in E2 by lia. congruence.
Qed.
