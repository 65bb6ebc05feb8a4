(** C46: HashSpGEMM, the unmasked product. *)
From stdpp Require Import numbers sorting.
From Coq Require Import ZArith Sorted.
From Verif Require Import HashHwModel BaseProofs ComplProofs WorkProofs Assemble TwoPassProofs BinProofs LpProofs MatSpec HashHwProofs PropBin PropSpa PropMat Examples.
From Verif Require Import Base Spec.

(** Sorting pairs with distinct keys by their keys alone: [sort_less] of hash_mult_hw.h 91-95 never looks at the
    values, so the contract of std::sort is the one with an empty order on the values. *)
Lemma sorted_by_key {V} (stdsort : list (nat * V) -> list (nat * V)) l : sort_contract (fun _ _ => False) stdsort -> NoDup (fst <$> l) ->
  StronglySorted lt (fst <$> stdsort l).
Proof.
  intros Hs Hnd. destruct (Hs l) as [Hp Ho]. assert (Hnd' : NoDup (fst <$> stdsort l)) by (rewrite Hp; exact Hnd).
  revert Ho Hnd'. generalize (stdsort l). clear. induction l as [|x l IH]; intros Ho Hnd; [constructor|]. rewrite fmap_cons in *. apply NoDup_cons in Hnd as [Hx Hnd].
  constructor.
  - apply IH; [|exact Hnd]. intros i j a b Hij Ha Hb. apply (Ho (S i) (S j) a b ltac:(lia) Ha Hb).
  - apply Forall_forall. intros k Hk. apply elem_of_list_fmap in Hk as (y & -> & Hy). apply elem_of_list_lookup in Hy as [j Hj].
    specialize (Ho 0 (S j) x y ltac:(lia) eq_refl Hj). assert (fst x <> fst y) by (intros E; apply Hx; rewrite E; apply elem_of_list_fmap; exists y; split; [reflexivity|eapply elem_of_list_lookup_2, Hj]).
    destruct (Nat.lt_trichotomy (fst x) (fst y)) as [?|[?|?]]; [assumption|contradiction|]. destruct Ho. left. assumption.
Qed.

(** [C] has every entry of the product of [A] and [B] exactly once; with [sorted], the rows are in order. *)
Definition holds_product {V} (mul add : V -> V -> V) (sorted : bool) (A B C : csr V) : Prop :=
  wf C /\ rows C = rows A /\ cols C = cols B /\
  forall i, i < rows A ->
    NoDup (row_cols C i) /\
    (forall j v, (j, v) ∈ row_entries C i <-> sum1 add (products mul (row_entries A i) (row_entries B) j) = Some v) /\
    (sorted = true -> StronglySorted lt (row_cols C i)).

(** C46.  Fewer than 2^17 - 1 rows, counts that fit the index type: HashSpGEMM always ends, for every number of
    threads, interleaving and content of the left-over tables, with one and the same matrix, the product of A and
    B, each new product on the left of addop. *)
Theorem C46_hash_partial :
  forall V (dflt : V) mul add w W stdsort sorted top nts nt (A B : csr V), wf A -> wf B -> cols A = rows B -> rows A <> 0 -> 1 <= nt ->
  (N.of_nat (rows A + 1) < 2 ^ 17)%N -> sort_contract (fun _ _ => False) stdsort ->
  let work i := length (touched_cols A B i) in
  sum_list (work <$> seq 0 (rows A)) + nt <= W -> 8 < W -> (forall i, i < rows A -> 2 * Nat.min (work i) (cols B) <= W) ->
  exists C,
    hashSpGEMM_ends dflt mul add w W stdsort sorted top nts nt A B C /\
    (forall C', hashSpGEMM_ends dflt mul add w W stdsort sorted top nts nt A B C' -> C' = C) /\
    holds_product mul (fun s x => add x s) sorted A B C /\
    ((forall x y, add x y = add y x) -> holds_product mul add sorted A B C).
Proof.
  intros V dflt mul add w W stdsort sorted top nts nt A B HA HB Hc H0 Hnt HN Hsrt work HW H8 Hf.
  assert (Ew : forall i, nprods A B i = work i) by (intros i; apply nprods_touched).
  assert (El : nprods A B <$> seq 0 (rows A) = work <$> seq 0 (rows A)) by (apply list_fmap_ext; intros _ i _; apply Ew).
  assert (HW' : sum_list (nprods A B <$> seq 0 (rows A)) + nt <= W) by (rewrite El; exact HW).
  assert (Hf' : forall i, i < rows A -> 2 * Nat.min (nprods A B i) (cols B) <= W) by (intros i Hi; rewrite Ew; apply Hf, Hi).
  assert (Hp : forall l, stdsort l ≡ₚ l) by (intros l; apply Hsrt).
  destruct (hashSpGEMM_ok dflt mul add w W stdsort A B nt HA HB Hc H0 Hnt HN HW' H8 Hf' Hp sorted top nts) as (P & U & _).
  set (R := hwOut mul add w W stdsort A B sorted) in *. exists (assemble R (rows A) (cols B)). split; [exact P|]. split; [exact U|].
  set (addf := fun s x => add x s).
  assert (HR : forall i, i < rows A -> NoDup (fst <$> R i) /\ (forall j v, (j, v) ∈ R i <-> sum1 addf (products mul (row_entries A i) (row_entries B) j) = Some v) /\ (sorted = true -> StronglySorted lt (fst <$> R i))).
  { intros i Hi.
    assert (Hel : forall j v, sum1 addf (products mul (row_entries A i) (row_entries B) j) = Some v -> j ∈ touched_cols A B i) by (intros j v; apply entry_touched).
    unfold R, hwOut. destruct (Nat.ltb_spec 0 (idOf W (nprods A B) (rows A) (cols B) 8 i)) as [Hb|Hb].
    - destruct (hw_size dflt mul add W A B nt HB Hc H0 Hnt HN HW' H8 Hf' i Hi Hb) as [_ Hk]. fold addf. set (kk := hwKk W A B i) in *.
      assert (Hnd : NoDup (fst <$> hwRow mul add w A B i kk)).
      { rewrite hwRow_cols by (rewrite row_prods_cols; exact Hk). rewrite row_prods_cols, (slotOrder_perm w kk _ Hk). apply NoDup_first_touch. }
      assert (Hin : forall j v, (j, v) ∈ hwRow mul add w A B i kk <-> sum1 addf (products mul (row_entries A i) (row_entries B) j) = Some v).
      { intros j v. unfold hwRow. rewrite mrow_elem, colval_entry, row_prods_cols, (slotOrder_perm w kk _ Hk), elem_of_first_touch. unfold entry. split; [tauto|]. intros E. split; [eapply Hel, E|exact E]. }
      destruct sorted.
      + split; [rewrite (Hp _); exact Hnd|]. split; [intros j v; rewrite (Hp _); apply Hin|]. intros _. apply sorted_by_key; assumption.
      + split; [exact Hnd|]. split; [exact Hin|discriminate].
    - split; [constructor|]. split; [|intros _; constructor]. intros j v. split; [intros H; inversion H|]. intros E. apply Hel in E.
      rewrite (hw_empty dflt mul add W A B nt HB Hc H0 Hnt HN HW' H8 Hf' i Hi) in E by lia. inversion E. }
  assert (Hho : holds_product mul addf sorted A B (assemble R (rows A) (cols B))).
  { split; [|split; [reflexivity|split; [reflexivity|]]].
    - apply assemble_wf. intros i c v Hi Hin. apply HR in Hin; [|exact Hi]. apply entry_touched in Hin. rewrite <- row_prods_cols in Hin.
      apply elem_of_list_fmap in Hin as ([[c' a] b] & -> & Hin). eapply row_prods_range; [exact HB|exact Hin].
    - intros i Hi. unfold row_cols. rewrite assemble_row by exact Hi. apply HR, Hi. }
  split; [exact Hho|]. intros Hcm. destruct Hho as (Hw & Hr & Hcl & H). split; [exact Hw|]. split; [exact Hr|]. split; [exact Hcl|].
  intros i Hi. destruct (H i Hi) as (H1 & H2 & H3). split; [exact H1|]. split; [|exact H3]. intros j v. rewrite H2. unfold addf. rewrite sum1_flip by exact Hcm. reflexivity.
Qed.
Print Assumptions C46_hash_partial.

(** No two unordered accesses of one cell in either pass, one of them a write. *)
Theorem C46_race_free :
  forall V (dflt : V) mul add w W stdsort sorted top nts nt (A B : csr V), wf A -> wf B -> cols A = rows B -> rows A <> 0 -> 1 <= nt ->
  (N.of_nat (rows A + 1) < 2 ^ 17)%N -> sort_contract (fun _ _ => False) stdsort ->
  let work i := length (touched_cols A B i) in
  sum_list (work <$> seq 0 (rows A)) + nt <= W -> 8 < W -> (forall i, i < rows A -> 2 * Nat.min (work i) (cols B) <= W) ->
  forall b asg left C, set_max_bin_ends W top nts nt 8 (rowptr A) (colids A) (rowptr B) (rows A) (cols B) b -> chunks (b_off b) nt = Ok asg ->
  (forall t tab, t < nt -> hwTable W b (cols B) t = Ok tab -> length (left t) = length tab) ->
  hashSpGEMM_ends dflt mul add w W stdsort sorted top nts nt A B C ->
  race_free (symMem (V := V) (b_nz b), symThreads (hwTable W b (cols B)) (hwSym w W A B (b_id b)) asg) /\
  race_free (numMem (replicate (nnz C) 0) (replicate (nnz C) dflt),
    numThreads (fun t => tab <- hwTable W b (cols B) t ;; Ok (left t, replicate (length tab) dflt)) (hwNum dflt mul add w W stdsort sorted A B (b_id b) (rowptr C)) (rowptr C) asg).
Proof.
  intros V dflt mul add w W stdsort sorted top nts nt A B HA HB Hc H0 Hnt HN Hsrt work HW H8 Hf b asg left C Hb Hasg Hl HC.
  assert (Ew : forall i, nprods A B i = work i) by (intros i; apply nprods_touched).
  assert (El : nprods A B <$> seq 0 (rows A) = work <$> seq 0 (rows A)) by (apply list_fmap_ext; intros _ i _; apply Ew).
  assert (HW' : sum_list (nprods A B <$> seq 0 (rows A)) + nt <= W) by (rewrite El; exact HW).
  assert (Hf' : forall i, i < rows A -> 2 * Nat.min (nprods A B i) (cols B) <= W) by (intros i Hi; rewrite Ew; apply Hf, Hi).
  assert (Hp : forall l, stdsort l ≡ₚ l) by (intros l; apply Hsrt).
  destruct (hashSpGEMM_ok dflt mul add w W stdsort A B nt HA HB Hc H0 Hnt HN HW' H8 Hf' Hp sorted top nts) as (_ & U & F).
  rewrite (U C HC). exact (F b asg left Hb Hasg Hl).
Qed.
Print Assumptions C46_race_free.

(** Finding: from 2^17 - 1 rows on BIN's prefix sum reads past row_nz. *)
Theorem C46_large_refuted :
  forall V (dflt : V) mul add w W stdsort sorted top nts nt (A B : csr V), wf A -> wf B -> cols A = rows B -> (2 ^ 17 <= N.of_nat (rows A + 1))%N -> 1 <= nts <= rows A + 1 ->
  ~ (exists C, hashSpGEMM_ends dflt mul add w W stdsort sorted top nts nt A B C).
Proof. intros V dflt mul add w W stdsort sorted top nts nt A B HA HB Hc HN Hn [C H]. revert H. apply hashSpGEMM_large; assumption. Qed.
Print Assumptions C46_large_refuted.

(** Finding: BIN's constructor asserts that there are rows. *)
Theorem C46_zero_rows_refuted :
  forall V (dflt : V) mul add w W stdsort sorted top nts nt (A B : csr V), rows A = 0 -> ~ (exists C, hashSpGEMM_ends dflt mul add w W stdsort sorted top nts nt A B C).
Proof. intros V dflt mul add w W stdsort sorted top nts nt A B H0 (C & b & asg & (H & _) & _). contradiction. Qed.
Print Assumptions C46_zero_rows_refuted.

(** Row 0 of the product touches all eight columns, so that its table of eight slots becomes full, and then meets
    columns that are there already; addop is not commutative.  Two threads. *)
Definition exAw : csr Z := mkCsr 3 3 4 [0;2;2;4] [0;2;1;2] [1;2;3;4]%Z.
Definition exBw : csr Z := mkCsr 3 8 11 [0;5;6;11] [7;3;0;5;1; 3; 4;6;2;3;7] [1;2;3;4;5; 6; 7;8;9;10;11]%Z.
Lemma exAw_wf : wf exAw. Proof. prove_wf. Qed.
Lemma exBw_wf : wf exBw. Proof. prove_wf. Qed.
Lemma merge_sort_by_key : sort_contract (fun _ _ : Z => False) (merge_sort zle).
Proof.
  intros l. destruct (merge_sort_contract l) as [Hp Ho]. split; [exact Hp|]. intros i j x y Hij Hx Hy [H|[_ []]]. apply (Ho i j x y Hij Hx Hy). left. exact H.
Qed.
Example C46_example :
  (forall i, i < rows exAw -> 2 * Nat.min (length (touched_cols exAw exBw i)) (cols exBw) <= 64) /\
  length (first_touch (touched_cols exAw exBw 0)) = 8 /\
  (exists C, hashSpGEMM_ends 0%Z Z.mul Z.sub 32 64 (merge_sort zle) false 255 1 2 exAw exBw C /\
    C = mkCsr 3 8 13 [0; 8; 8; 13] [0; 3; 6; 1; 4; 7; 2; 5; 3; 6; 4; 7; 2] [3; 18; 16; 5; 14; 21; 18; 4; 22; 32; 28; 44; 36]%Z) /\
  (exists C, hashSpGEMM_ends 0%Z Z.mul Z.sub 32 64 (merge_sort zle) true 255 1 2 exAw exBw C /\
    C = mkCsr 3 8 13 [0; 8; 8; 13] [0; 1; 2; 3; 4; 5; 6; 7; 2; 3; 4; 6; 7] [3; 5; 18; 18; 14; 4; 16; 21; 36; 22; 28; 32; 44]%Z).
Proof.
  assert (Hf : forall i, i < rows exAw -> 2 * Nat.min (length (touched_cols exAw exBw i)) (cols exBw) <= 64).
  { intros i Hi. cbn in Hi. do 3 (destruct i as [|i]; [apply (bool_decide_unpack _); vm_compute; exact I|]). lia. }
  assert (Hf' : forall i, i < rows exAw -> 2 * Nat.min (nprods exAw exBw i) (cols exBw) <= 64) by (intros i Hi; rewrite nprods_touched; apply Hf, Hi).
  split; [exact Hf|]. split; [reflexivity|].
  assert (Hr : forall sorted, hashSpGEMM_ends 0%Z Z.mul Z.sub 32 64 (merge_sort zle) sorted 255 1 2 exAw exBw (assemble (hwOut Z.mul Z.sub 32 64 (merge_sort zle) exAw exBw sorted) 3 8)).
  { intros sorted. apply (hashSpGEMM_ok 0%Z Z.mul Z.sub 32 64 (merge_sort zle) exAw exBw 2 exAw_wf exBw_wf eq_refl ltac:(discriminate) ltac:(lia) eq_refl).
    - apply (bool_decide_unpack _). vm_compute. exact I.
    - lia.
    - exact Hf'.
    - intros l. apply merge_sort_by_key. }
  split; eexists; (split; [apply Hr|]); vm_compute; reflexivity.
Qed.
