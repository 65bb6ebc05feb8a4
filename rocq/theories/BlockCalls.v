(** One cell of the block loop, the reading of the blocks, and the totals. *)
From stdpp Require Import numbers list_numbers.
From Coq Require Import ZArith.
From Verif Require Import IoModel MatModel IndexModel ReportModel HashHwModel IsectModel SpaModel NohashModel MaskHashModel BlockModel.
From Verif Require Import KernelBase BaseProofs ConcProofs McaProofs WorkProofs ComplProofs AlgProofs Assemble GraphProofs TriProofs TriAllProofs.
From Verif Require Import PropMat PropIsect PropSpa PropHashHw PropIndex PropNohash PropMaskHash PropHeapImpl PropHeapCsc PropReport PropIo.
From Verif Require Import BlockSpec BlockProofs.
From Verif Require Import Base Spec.
Local Open Scope list_scope.

Lemma contract_key {V} (ltV : V -> V -> Prop) (srt : list (nat * V) -> list (nat * V)) : sort_contract ltV srt -> sort_contract (fun _ _ => False) srt.
Proof. intros H l. destruct (H l) as [H1 H2]. split; [exact H1|]. intros i j x y Hij Hx Hy [Hl|[_ []]]. apply (H2 i j x y Hij Hx Hy). left. exact Hl. Qed.
Lemma nsum_le {X} (l : list X) f g : (forall x, x ∈ l -> f x <= g x) -> nsum l f <= nsum l g.
Proof.
  induction l as [|x l IH]; intros H; [reflexivity|]. unfold nsum. rewrite !msum_cons. fold (@nsum X). pose proof (H x ltac:(left)). specialize (IH ltac:(intros y Hy; apply H; right; exact Hy)). lia.
Qed.
Lemma nsum_mul {X} (l : list X) f m : nsum l (fun x => f x * m) = nsum l f * m.
Proof. induction l as [|x l IH]; [reflexivity|]. unfold nsum in *. rewrite !msum_cons, IH. lia. Qed.
Lemma nsum_in {X} (l : list X) f x : x ∈ l -> f x <= nsum l f.
Proof. induction 1 as [x l|x y l H IH]; unfold nsum in *; rewrite msum_cons; lia. Qed.
Lemma nsum_const {X} (l : list X) m : nsum l (fun _ => m) = length l * m.
Proof. induction l as [|x l IH]; [reflexivity|]. unfold nsum in *. rewrite msum_cons, IH. simpl. lia. Qed.
Lemma sorted_bound (l : list nat) m : NoDup l -> (forall x, x ∈ l -> x < m) -> length l <= m.
Proof.
  intros Hn H. rewrite <- (seq_length m 0). apply submseteq_length, NoDup_submseteq; [exact Hn|]. intros x Hx. apply elem_of_seq. specialize (H x Hx). lia.
Qed.
Lemma nnz_nsum {V} (T : csr V) : wf T -> nnz T = nsum (seq 0 (rows T)) (fun r => length (row_cols T r)).
Proof. intros Hw. rewrite (nnz_rows T Hw). apply nsum_list. Qed.

Lemma colids_row {V} (X : csr V) p k : wf X -> colids X !! p = Some k -> exists r, r < rows X /\ k ∈ row_cols X r.
Proof.
  intros Hw Hp. rewrite (wf_assemble X Hw) in Hp. unfold assemble, rowsOf in Hp. cbn [colids] in Hp. rewrite Nat.sub_0_r in Hp. apply elem_of_list_lookup_2 in Hp.
  apply elem_of_list_fmap in Hp as (e & -> & Hp). apply elem_of_list_join in Hp as (l & He & Hl). apply elem_of_list_fmap in Hl as (r & -> & Hr). apply elem_of_seq in Hr.
  exists r. split; [lia|]. apply elem_of_list_fmap. exists e. auto.
Qed.

Section Cell.
Context (w : N) (W top nts : nat) (stdsort : list (nat * Z) -> list (nat * Z)) (Hsort : sort_contract Z.lt stdsort).
Context (A B M : csr Z) (Bc : csc Z) (m : nat).
Context (Hco : compatible A B M) (HsA : sorted_rows A) (HsB : sorted_rows B) (HsM : sorted_rows M).
Context (HBc : wf_csc Bc) (Hsm : same_matrix B Bc) (Hsc : sorted_cols Bc).
Context (H0 : rows A <> 0) (HN : (N.of_nat (rows A + 1) < 2 ^ 17)%N).
Context (Hin : forall r k, r < rows A -> k ∈ row_cols A r -> k < cols B).
Context (Hm : cols B <= m) (Hm' : rows B <= m) (HW : 2 * nnz A * m + rows A + 16 <= W) (HWM : 2 * (nnz M + 1) <= W).

Definition hp r c : nat := if products Z.mul (row_entries A r) (row_entries B) c then 0 else 1.
Definition cell : tcCell :=
  mkCell (2 * nsum (seq 0 (rows A)) (nprods A B)) (nsum (seq 0 (rows A)) (fun r => nsum (seq 0 (cols B)) (hp r)))
    (nsum (seq 0 (rows A)) (fun r => nsum (row_cols M r) (hp r))) (nsum (seq 0 (rows A)) (fun r => nsum (row_cols M r) (hp r)))
    (zs (seq 0 (rows A)) (fun r => zsum (snd <$> spec_row Z.mul Z.add A B M r)) mod 2 ^ 64).

Lemma touched_bound r : r < rows A -> length (touched_cols A B r) <= length (row_cols A r) * m.
Proof.
  intros Hr. rewrite touched_length, nprods_nsum. unfold row_cols. rewrite fmap_length, <- nsum_const. apply nsum_le. intros [k a] Hk.
  assert (Hkr : k < rows B) by (rewrite <- (co_inner A B M Hco); eapply row_entries_range; [apply Hco|exact Hk]). cbn [fst].
  rewrite <- (fmap_length fst). etransitivity; [|exact Hm]. apply sorted_bound; [apply SSorted_NoDup, HsB, Hkr|].
  intros x Hx. apply (row_cols_range B k); [apply Hco|exact Hx].
Qed.
Lemma bin_bound r : r < rows A -> bin_work A Bc r <= length (row_cols A r) * m.
Proof.
  intros Hr. unfold bin_work. rewrite nsum_list, <- nsum_const. apply nsum_le. intros k Hk.
  assert (Hkc : k < c_cols Bc).
  { rewrite <- (sm_cols B Bc Hsm). eapply Hin; [exact Hr|exact Hk]. }
  rewrite <- (fmap_length fst). etransitivity; [|exact Hm']. apply sorted_bound; [apply SSorted_NoDup, Hsc, Hkc|].
  intros x Hx. rewrite (sm_rows B Bc Hsm). apply (row_cols_range (csc_tr Bc) k); [exact HBc|exact Hx].
Qed.
Lemma rows_bound (f : nat -> nat) : (forall r, r < rows A -> f r <= length (row_cols A r) * m) -> sum_list (f <$> seq 0 (rows A)) <= nnz A * m.
Proof.
  intros H. rewrite nsum_list, (nnz_nsum A (co_A A B M Hco)), <- nsum_mul. apply nsum_le. intros r Hr. apply elem_of_seq in Hr. apply H. lia.
Qed.
Lemma row_bound (f : nat -> nat) r : (forall r, r < rows A -> f r <= length (row_cols A r) * m) -> r < rows A -> 2 * Nat.min (f r) (cols B) <= W.
Proof.
  intros H Hr. pose proof (rows_bound f H) as Hs. rewrite nsum_list in Hs. pose proof (nsum_in (seq 0 (rows A)) f r ltac:(apply elem_of_seq; lia)). lia.
Qed.
Lemma hp_filter (l l' : list nat) r : NoDup l -> NoDup l' -> (forall c, c ∈ l <-> c ∈ l' /\ products Z.mul (row_entries A r) (row_entries B) c <> []) -> length l = nsum l' (hp r).
Proof.
  intros Hl Hl' H.
  assert (E : nsum l' (hp r) = length (filter (fun c => (match products Z.mul (row_entries A r) (row_entries B) c with [] => false | _ => true end) = true) l')).
  { rewrite (BlockProofs.filter_length (fun c => match products Z.mul (row_entries A r) (row_entries B) c with [] => false | _ => true end)). apply nsum_ext. intros c _. unfold hp.
    destruct (products _ _ _ c); reflexivity. }
  rewrite E. apply Permutation_length, NoDup_Permutation; [exact Hl|apply NoDup_filter, Hl'|]. intros c. rewrite H, elem_of_list_filter.
  destruct (products _ _ _ c); split; intros [? ?]; split; congruence || assumption.
Qed.
Lemma sum1_ne add l : (exists v : Z, sum1 add l = Some v) <-> l <> [].
Proof. destruct l; simpl; split; [intros [? ?]; discriminate|congruence|congruence|eauto]. Qed.
Lemma sumvals (C : csr Z) : wf C -> fold_right Z.add 0%Z (take (nnz C) (values C)) = zs (seq 0 (rows C)) (fun r => zsum (snd <$> row_entries C r)).
Proof.
  intros Hw. rewrite take_ge by (rewrite (wf_values C Hw); lia). rewrite (wf_assemble C Hw) at 1. unfold assemble. cbn [values]. unfold rowsOf. rewrite Nat.sub_0_r.
  change (zsum (snd <$> mjoin (row_entries C <$> seq 0 (rows C))) = zs (seq 0 (rows C)) (fun r => zsum (snd <$> row_entries C r))).
  induction (seq 0 (rows C)) as [|r l IH]; [reflexivity|]. rewrite fmap_cons, mjoin_cons, fmap_app, zsum_app, IH. reflexivity.
Qed.
Lemma zsum_perm l l' : l ≡ₚ l' -> zsum l = zsum l'.
Proof. unfold zsum. induction 1; simpl; lia. Qed.

Lemma cell_ends o : tcStep_ends w W top nts stdsort A B M Bc o <-> o = cell.
Proof.
  pose proof (co_A A B M Hco) as HwA. pose proof (co_B A B M Hco) as HwB. pose proof (co_M A B M Hco) as HwM.
  pose proof (co_inner A B M Hco) as Hi. pose proof (co_rows A B M Hco) as HrM. pose proof (co_cols A B M Hco) as HcM.
  assert (Hin' : forall p k, colids A !! p = Some k -> k < cols B).
  { intros p k Hp. destruct (colids_row A p k HwA Hp) as (r & Hr & Hk). eapply Hin; eauto. }
  pose proof (rows_bound _ touched_bound) as Ht. pose proof (rows_bound _ bin_bound) as Hb.
  assert (Ht2 : forall i, i < rows A -> 2 * Nat.min (length (touched_cols A B i)) (cols B) <= W) by (intros i Hi'; apply (row_bound (fun i => length (touched_cols A B i))); [apply touched_bound|exact Hi']).
  assert (Hb2 : forall i, i < rows A -> 2 * Nat.min (bin_work A Bc i) (cols B) <= W) by (intros i Hi'; apply row_bound; [apply bin_bound|exact Hi']).
  destruct (C46_hash_partial Z 0%Z Z.mul Z.add w W stdsort false top nts 1 A B HwA HwB Hi H0 (le_n 1) HN (contract_key _ _ Hsort) ltac:(cbv zeta in *; lia) ltac:(lia) Ht2) as (C & C1 & C2 & _ & C3).
  destruct (C3 Z.add_comm) as (HwC & HrC & HcC & HC). clear C3.
  destruct (C33_sort_rows Z Z.lt stdsort Hsort C HwC) as (S & S1 & S2 & _ & HwS & HpS & HrS & HcS & HS).
  assert (HsS : sorted_rows S).
  { intros i Hi'. rewrite HrS in Hi'. apply (HS i Hi'). apply (HC i). congruence. }
  destruct (C35_intersect_partial Z 0%Z Z.add top nts M S HwM HwS HsM HsS ltac:(congruence) ltac:(congruence) ltac:(rewrite HrM; exact HN)) as (T & T1 & T2 & HwT & HrT & HcT & HsT & HT).
  destruct (C44_spa_partial Z 0%Z Z.mul Z.add W top nts 1 A B M Hco H0 (le_n 1) HN ltac:(cbv zeta in *; lia) ltac:(lia) Ht2) as (D & D1 & D2 & HwD & HrD & HcD & HD).
  destruct (C47_nohash_partial Z 0%Z 0%Z Z.mul Z.add W top nts 1 8 A B M Bc Hco HBc Hsm HsA ltac:(intros i Hi'; apply SSorted_NoDup, HsB, Hi') Hsc H0 (le_n 1) HN ltac:(lia) ltac:(lia) Hin' ltac:(lia) Hb2)
    as (E & E1 & E2 & HwE & HrE & HcE & _ & HE).
  specialize (HE Z.add_0_l).
  destruct (C45_bin_partial Z 0%Z Z.mul Z.add w W top nts 1 A B M Hco H0 (le_n 1) HN ltac:(lia)) as (F & _ & F1 & F2); [|cbv zeta in *; lia|exact Ht2|].
  { intros i Hi'. pose proof (nnz_nsum M HwM) as Hn. pose proof (nsum_in (seq 0 (rows M)) (fun r => length (row_cols M r)) i ltac:(apply elem_of_seq; lia)) as Hl. cbv beta in Hl. rewrite <- Hn in Hl. lia. }
  assert (N1 : getFlopCsr A B = Ok (2 * nsum (seq 0 (rows A)) (nprods A B))).
  { rewrite (C58_flop_csr A B HwA HwB Hi), (mult_pairs_nprods A B HwA HwB Hi), nsum_list. reflexivity. }
  assert (N2 : nnz C = nsum (seq 0 (rows A)) (fun r => nsum (seq 0 (cols B)) (hp r))).
  { rewrite (nnz_nsum C HwC), HrC. apply nsum_ext. intros r Hr. apply elem_of_seq in Hr. destruct (HC r ltac:(lia)) as (Hnd & Hel & _). apply hp_filter; [exact Hnd|apply NoDup_seq|].
    intros c. rewrite <- (sum1_ne Z.add). split.
    - intros Hc. split; [apply elem_of_seq; split; [lia|]; rewrite <- HcC; eapply (row_cols_range C r); eauto|]. apply elem_of_list_fmap in Hc as ([c' v] & -> & Hc). exists v. apply Hel, Hc.
    - intros [_ [v Hv]]. apply Hel in Hv. apply elem_of_list_fmap. exists (c, v). auto. }
  assert (N3 : nnz T = nsum (seq 0 (rows A)) (fun r => nsum (row_cols M r) (hp r))).
  { rewrite (nnz_nsum T HwT), HrT, HrM. apply nsum_ext. intros r Hr. apply elem_of_seq in Hr. apply hp_filter; [apply SSorted_NoDup, HsT; lia|apply SSorted_NoDup, HsM; lia|].
    assert (HSC : forall c v, (c, v) ∈ row_entries S r <-> (c, v) ∈ row_entries C r) by (intros c v; destruct (HS r ltac:(lia)) as [Hp _]; rewrite Hp; reflexivity).
    destruct (HC r ltac:(lia)) as (_ & Hel & _).
    intros c. rewrite <- (sum1_ne Z.add). split.
    - intros Hc. apply elem_of_list_fmap in Hc as ([c' v] & -> & Hc). apply HT in Hc as (a & b & Ha & Hb' & _); [|lia]. apply HSC, Hel in Hb'.
      split; [apply elem_of_list_fmap; exists (c', a); auto|eauto].
    - intros [Hc [v Hv]]. apply Hel, HSC in Hv. apply elem_of_list_fmap in Hc as ([c' a] & -> & Hc). apply elem_of_list_fmap. exists (c', (a + v)%Z). split; [reflexivity|]. apply HT; [lia|]. eauto. }
  assert (N4 : nnz E = nsum (seq 0 (rows A)) (fun r => nsum (row_cols M r) (hp r))).
  { rewrite (nnz_nsum E HwE), HrE. apply nsum_ext. intros r Hr. apply elem_of_seq in Hr. unfold row_cols. rewrite fmap_length, HE by lia. apply masked_length. }
  assert (N5 : fold_right Z.add 0%Z (take (nnz D) (values D)) = zs (seq 0 (rows A)) (fun r => zsum (snd <$> spec_row Z.mul Z.add A B M r))).
  { rewrite (sumvals D HwD), HrD. apply zs_ext. intros r Hr. apply elem_of_seq in Hr. apply zsum_perm. destruct (HD r ltac:(lia)) as (_ & _ & _ & Hp).
    rewrite (Hp Z.add_comm); [reflexivity|]. apply SSorted_NoDup, HsM. lia. }
  assert (HvD : nnz D <= length (values D)) by (rewrite (wf_values D HwD); lia).
  split.
  - intros (C' & S' & T' & D' & E' & F' & G1 & G2 & G3 & G4 & G5 & G6 & G7 & G8 & G9 & G10 & _).
    apply C2 in G2. subst C'. apply S2 in G4. subst S'. apply T2 in G5. subst T'. apply D2 in G7. subst D'. apply E2 in G9. subst E'.
    apply (C32_sumall 64 (values D) (nnz D) (t_tri o) HvD) in G8. rewrite N5 in G8. rewrite N1 in G1. destruct o as [o1 o2 o3 o4 o5]. cbn in *. unfold cell. injection G1 as <-. subst. rewrite N2, N3, N4. reflexivity.
  - intros ->. exists C, S, (Some T), D, E, F. unfold cell; cbn [t_flps t_nnzs t_masked t_inner t_tri]. split; [exact N1|]. split; [exact C1|]. split; [symmetry; exact N2|].
    split; [exact S1|]. split; [exact T1|]. split; [symmetry; exact N3|]. split; [exact D1|]. split; [|split; [exact E1|split; [symmetry; exact N4|exact F1]]].
    apply (C32_sumall 64 (values D) (nnz D) _ HvD). rewrite N5. reflexivity.
Qed.
End Cell.

(** ** Reading *)
Lemma csr_triples_elem {V} (X : csr V) r c v : (r, c, v) ∈ triples X <-> r < rows X /\ (c, v) ∈ row_entries X r.
Proof.
  unfold triples. rewrite elem_of_list_join. split.
  - intros (l & H & Hl). apply elem_of_list_fmap in Hl as (i & -> & Hi). apply elem_of_seq in Hi. apply elem_of_list_fmap in H as ([c' v'] & E & H). injection E as -> -> ->. split; [lia|exact H].
  - intros [Hr H]. eexists. split; [|apply elem_of_list_fmap; exists r; split; [reflexivity|apply elem_of_seq; lia]]. apply elem_of_list_fmap. exists (c, v). auto.
Qed.
Lemma read_block stdsort A ns i j f t : sort_contract Z.lt stdsort -> file_text f t -> file_block A ns i j f ->
  exists Xc X, (forall Xc' X', readBlock_ends stdsort (Some t) Xc' X' <-> Xc' = Xc /\ X' = X) /\ is_block A ns i j X /\ wf_csc Xc /\ same_matrix X Xc /\ sorted_cols Xc.
Proof.
  intros Hsort Hft (Hwf & Hsk & Hsy & Hint & Hr & Hc & Hnd & Hel).
  destruct (C53_read_csc_partial Z (fun z => z) Z.lt 0%Z stdsort Hsort 9223372036854775807%Z f t ltac:(vm_compute; discriminate) Hwf Hsk Hint Hsy Hft) as (Xc & X1 & HwX & HrX & HcX & HpX & HsX).
  assert (E : (fun e : nat * nat * Z => (fst e, snd e)) <$> means f = means f) by (rewrite <- (list_fmap_id (means f)) at 2; apply list_fmap_ext; intros q [[? ?] ?] _; reflexivity).
  cbv beta in HpX. rewrite E in HpX. clear E.
  assert (Hd : distinct_cols Xc) by (intros c Hc0; apply (cols_nodup Xc); [rewrite HpX; exact Hnd|exact Hc0]).
  destruct (C31_conversion Z 0%Z Xc HwX) as (X & Y1 & HwY & Hsm & Hnz & Htr & Hrow).
  assert (HrY : rows X = bsize ns i) by (rewrite (sm_rows X Xc Hsm), HrX; exact Hr). assert (HcY : cols X = bsize ns j) by (rewrite (sm_cols X Xc Hsm), HcX; exact Hc).
  exists Xc, X. split; [|split; [|split; [exact HwX|split; [exact Hsm|]]]].
  - intros Xc' X'. unfold readBlock_ends. rewrite X1. split.
    + intros [E1 E2]. injection E1 as ->. split; [reflexivity|]. congruence.
    + intros [-> ->]. auto.
  - constructor; [exact HwY|intros r Hr'; apply (Hrow r Hr'), Hd|exact HrY|exact HcY|]. intros r c v Hr'.
    assert (Q : (c, v) ∈ row_entries X r <-> (r, c, v) ∈ means f) by (rewrite <- HpX, <- Htr, csr_triples_elem; intuition lia).
    rewrite Q, Hel. intuition.
  - intros c Hc'. apply strict_of_le; [apply HsX, Hc'|apply Hd, Hc'].
Qed.

(** ** Totals *)
Definition cellsSum {M} (op : M -> M -> M) (e : M) (g : nat) (f : nat -> nat -> nat -> M) : M :=
  msum op e (seq 0 g) (fun i => msum op e (seq 0 g) (fun j => msum op e (seq 0 g) (f i j))).
Lemma fold_totals (out : nat -> nat -> nat -> tcCell) l T0 : (0 <= totaltriangles T0 < 2 ^ 64)%Z ->
  fold_left (fun T '(i, j, k) => addCell (out i j k) T) l T0 =
  mkTotals (totalflops T0 + nsum l (fun '(i, j, k) => t_flps (out i j k))) (totalnnzs T0 + nsum l (fun '(i, j, k) => t_nnzs (out i j k)))
    (totalmaskednnz T0 + nsum l (fun '(i, j, k) => t_masked (out i j k))) (totalmaskedinnernnz T0 + nsum l (fun '(i, j, k) => t_inner (out i j k)))
    ((totaltriangles T0 + zs l (fun '(i, j, k) => t_tri (out i j k))) mod 2 ^ 64).
Proof.
  revert T0. induction l as [|[[i j] k] l IH]; intros T0 HT; cbn [fold_left].
  - destruct T0 as [a b c d e]. cbn in *. unfold nsum, zs, msum. simpl. rewrite !Nat.add_0_r, Z.add_0_r, Z.mod_small by exact HT. reflexivity.
  - rewrite IH; [|unfold addCell, plusInt; cbn [totaltriangles]; apply Z.mod_pos_bound; reflexivity]. unfold addCell, plusInt, nsum, zs. cbn [totalflops totalnnzs totalmaskednnz totalmaskedinnernnz totaltriangles].
    rewrite !msum_cons. f_equal; lia.
Qed.
Lemma cells_msum {M} (op : M -> M -> M) e (Ha : forall a b c, op a (op b c) = op (op a b) c) (He : forall a, op e a = a) g f :
  msum op e (cellsOf g g) (fun '(i, j, k) => f i j k) = cellsSum op e g f.
Proof.
  unfold cellsOf, cellsSum. rewrite (msum_mjoin op e Ha He). apply msum_ext. intros i _. rewrite (msum_mjoin op e Ha He). apply msum_ext. intros j _. rewrite msum_fmap. reflexivity.
Qed.
Lemma totals_eq g out : totals g g out =
  mkTotals (cellsSum Nat.add 0 g (fun i j k => t_flps (out i j k))) (cellsSum Nat.add 0 g (fun i j k => t_nnzs (out i j k)))
    (cellsSum Nat.add 0 g (fun i j k => t_masked (out i j k))) (cellsSum Nat.add 0 g (fun i j k => t_inner (out i j k)))
    (cellsSum Z.add 0%Z g (fun i j k => t_tri (out i j k)) mod 2 ^ 64)%Z.
Proof.
  unfold totals. rewrite fold_totals by (cbn; lia). cbn [totalflops totalnnzs totalmaskednnz totalmaskedinnernnz totaltriangles]. rewrite !Nat.add_0_l, Z.add_0_l. unfold nsum, zs.
  rewrite <- !(cells_msum Nat.add 0 Nat.add_assoc Nat.add_0_l), <- (cells_msum Z.add 0%Z Z.add_assoc Z.add_0_l). reflexivity.
Qed.
Lemma cellsSum_ext {M} (op : M -> M -> M) e g f f' : (forall i j k, i < g -> j < g -> k < g -> f i j k = f' i j k) -> cellsSum op e g f = cellsSum op e g f'.
Proof.
  intros H. unfold cellsSum. apply msum_ext. intros i Hi. apply elem_of_seq in Hi. apply msum_ext. intros j Hj. apply elem_of_seq in Hj. apply msum_ext. intros k Hk. apply elem_of_seq in Hk. apply H; lia.
Qed.
Lemma zs_mod {X} (l : list X) f : (zs l (fun x => f x mod 2 ^ 64) mod 2 ^ 64 = zs l f mod 2 ^ 64)%Z.
Proof.
  induction l as [|x l IH]; [reflexivity|]. unfold zs in *. rewrite !msum_cons. rewrite Zplus_mod_idemp_l, <- Zplus_mod_idemp_r, IH, Zplus_mod_idemp_r. reflexivity.
Qed.
Lemma cellsSum_mod g f : (cellsSum Z.add 0 g (fun i j k => f i j k mod 2 ^ 64) mod 2 ^ 64 = cellsSum Z.add 0 g f mod 2 ^ 64)%Z.
Proof.
  rewrite <- !(cells_msum Z.add 0%Z Z.add_assoc Z.add_0_l). etransitivity; [|apply zs_mod]. f_equal. apply zs_ext. intros [[i j] k] _. reflexivity.
Qed.
Lemma cellsSum_k (g : nat) f : cellsSum Nat.add 0 g f = nsum (seq 0 g) (fun k => nsum (seq 0 g) (fun i => nsum (seq 0 g) (fun j => f i j k))).
Proof.
  unfold cellsSum, nsum. rewrite (nsum_swap (seq 0 g) (seq 0 g) (fun k i => msum Nat.add 0 (seq 0 g) (fun j => f i j k))). apply nsum_ext. intros i _.
  rewrite nsum_swap. reflexivity.
Qed.
