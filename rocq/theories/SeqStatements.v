(** One accumulator used for any sequence of rows; sizes of the per-thread output buffers. *)
From stdpp Require Import numbers sorting.
From Verif Require Import MsaModel MsaStatements McaModel McaProofs HashModel HashProofs HashStatements HeapModel HeapProofs HeapStatements
  BaseProofs ComplProofs WorkModel WorkProofs AlgModel AlgProofs ConcProofs DriverModel DriverProofs DriverStatements.
From Verif Require Import Base Spec.

(** A thread handing its accumulator from row to row, as the loops of masked-spgemm.h:69-77,146-153,
    169-176 do, but over any list of rows. *)
Fixpoint rows_loop {T} (body : nat -> T -> res T) (rs : list nat) (s : T) : res T :=
  match rs with [] => Ok s | row :: rs' => s' <- body row s ;; rows_loop body rs' s' end.
(** Numeric: accumulator and output; symbolic: accumulator and running count. *)
Definition num_loop {Acc V} (kernel : nat -> Acc -> out V -> res (Acc * out V)) (rs : list nat) (acc : Acc) (cap : nat) : res (Acc * out V) :=
  rows_loop (fun row s => kernel row (fst s) (snd s)) rs (acc, mkOut [] cap).
Definition sym_loop {Acc C} (kernel : nat -> Acc -> res (Acc * C)) (rs : list nat) (acc : Acc) : res (Acc * list C) :=
  rows_loop (fun row s => r <- kernel row (fst s) ;; Ok (fst r, snd s ++ [snd r])) rs (acc, []).

Section Loop.
Context {Acc V C : Type}.
Lemma num_loop_gen (kernel : nat -> Acc -> out V -> res (Acc * out V)) (P : Acc -> Prop) (R : nat -> list (nat * V) -> Prop) (sz : nat -> nat) cap rs :
  (forall row acc dn, row ∈ rs -> P acc -> length dn + sz row <= cap ->
     exists acc' l, kernel row acc (mkOut dn cap) = Ok (acc', mkOut (dn ++ l) cap) /\ R row l /\ length l = sz row /\ P acc') ->
  forall acc dn, P acc -> length dn + sum_list (sz <$> rs) <= cap ->
  exists acc' ls, rows_loop (fun row s => kernel row (fst s) (snd s)) rs (acc, mkOut dn cap) = Ok (acc', mkOut (dn ++ mjoin ls) cap) /\
    Forall2 R rs ls /\ P acc'.
Proof.
  induction rs as [|row rs IH]; intros Hk acc dn HP Hs.
  - exists acc, []. simpl. rewrite app_nil_r. split; [reflexivity|]. split; [constructor|exact HP].
  - rewrite fmap_cons in Hs. simpl in Hs.
    destruct (Hk row acc dn) as (acc1 & l & E & HR & Hl & HP1); [left|exact HP|lia|].
    destruct (IH ltac:(intros; apply Hk; [right; assumption|assumption..]) acc1 (dn ++ l) HP1) as (acc2 & ls & E2 & HR2 & HP2).
    { rewrite app_length. unfold fmap in *. lia. }
    exists acc2, (l :: ls). split; [|split; [constructor; assumption|exact HP2]].
    cbn [rows_loop fst snd]. rewrite E, bind_Ok, E2, mjoin_cons, app_assoc. reflexivity.
Qed.
Lemma sym_loop_gen (kernel : nat -> Acc -> res (Acc * C)) (P : Acc -> Prop) (cnt : nat -> C) rs :
  (forall row acc, row ∈ rs -> P acc -> exists acc', kernel row acc = Ok (acc', cnt row) /\ P acc') ->
  forall acc dn, P acc ->
  exists acc', rows_loop (fun row s => r <- kernel row (fst s) ;; Ok (fst r, snd s ++ [snd r])) rs (acc, dn) = Ok (acc', dn ++ (cnt <$> rs)) /\ P acc'.
Proof.
  induction rs as [|row rs IH]; intros Hk acc dn HP.
  - exists acc. simpl. rewrite app_nil_r. auto.
  - destruct (Hk row acc) as (acc1 & E & HP1); [left|exact HP|].
    destruct (IH ltac:(intros; apply Hk; [right; assumption|assumption..]) acc1 (dn ++ [cnt row]) HP1) as (acc2 & E2 & HP2).
    exists acc2. split; [|exact HP2]. cbn [rows_loop fst snd]. rewrite E, bind_Ok. cbn [fst snd]. rewrite bind_Ok, E2, fmap_cons, <- app_assoc. reflexivity.
Qed.
End Loop.

Lemma Forall2_eq_fmap {T} (f : nat -> T) rs ls : Forall2 (fun i l => l = f i) rs ls -> ls = f <$> rs.
Proof. induction 1 as [|i l rs ls -> _ IH]; [reflexivity|]. rewrite fmap_cons, IH. reflexivity. Qed.
Lemma mjoin_sizes {T} (f : nat -> list T) rs : length (mjoin (f <$> rs)) = sum_list ((fun i => length (f i)) <$> rs).
Proof. induction rs as [|i rs IH]; [reflexivity|]. rewrite !fmap_cons, mjoin_cons, app_length, IH. reflexivity. Qed.

Section Seq.
Context {V : Type} (mul add : V -> V -> V).
Implicit Types A B M : csr V.

Lemma seq_msa (two : bool) A B M rs cap : compatible A B M -> distinct_rows M -> Forall (fun i => i < rows A) rs ->
  length (mjoin (spec_row mul add A B M <$> rs)) <= cap ->
  num_loop (msaNumericRow mul add two A B M) rs (msa_clean (cols B)) cap =
    Ok (msa_clean (cols B), mkOut (mjoin (spec_row mul add A B M <$> rs)) cap) /\
  sym_loop (msaSymbolicRow A B M) rs (msa_clean_sym (cols B)) =
    Ok (msa_clean_sym (cols B), (fun i => length (spec_row mul add A B M i)) <$> rs).
Proof.
  intros HC Hd Hrs Hc. rewrite Forall_forall in Hrs. assert (HM : forall i, i ∈ rs -> NoDup (row_cols M i)) by (intros i Hi; apply Hd; rewrite (co_rows _ _ _ HC); apply Hrs, Hi).
  rewrite mjoin_sizes in Hc. split.
  - destruct (num_loop_gen (msaNumericRow mul add two A B M) (eq (msa_clean (cols B))) (fun i l => l = spec_row mul add A B M i)
      (fun i => length (spec_row mul add A B M i)) cap rs) with (acc := msa_clean (V:=V) (cols B)) (dn := @nil (nat * V)) as (acc' & ls & E & HF & <-); try reflexivity.
    + intros row acc dn Hr <- Hl. exists (msa_clean (cols B)), (spec_row mul add A B M row). split; [|auto]. apply st_msa_numeric; auto.
    + simpl. exact Hc.
    + unfold num_loop. rewrite E. rewrite (Forall2_eq_fmap _ _ _ HF). reflexivity.
  - destruct (sym_loop_gen (msaSymbolicRow A B M) (eq (msa_clean_sym (cols B))) (fun i => length (spec_row mul add A B M i)) rs)
      with (acc := msa_clean_sym (V:=V) (cols B)) (dn := @nil nat) as (acc' & E & <-); try reflexivity.
    + intros row acc Hr <-. eexists. split; [|reflexivity]. apply st_msa_symbolic; auto.
    + exact E.
Qed.

Lemma seq_msaC (two sorted : bool) A B M rs cap : compatible A B M -> distinct_rows M -> Forall (fun i => i < rows A) rs ->
  length (mjoin (compl_cols A B M <$> rs)) <= cap ->
  (exists ls, num_loop (msaNumericRowC mul add two sorted A B M) rs (msa_clean (cols B)) cap = Ok (msa_clean (cols B), mkOut (mjoin ls) cap) /\
     Forall2 (fun i l => is_compl_row mul add A B M i l /\
       if sorted then StronglySorted lt (fst <$> l) else fst <$> l = compl_cols A B M i) rs ls) /\
  sym_loop (msaSymbolicRowC A B M) rs (msa_clean_sym (cols B)) =
    Ok (msa_clean_sym (cols B), (fun i => Z.of_nat (length (compl_cols A B M i))) <$> rs).
Proof.
  intros HC Hd Hrs Hc. rewrite Forall_forall in Hrs. assert (HM : forall i, i ∈ rs -> NoDup (row_cols M i)) by (intros i Hi; apply Hd; rewrite (co_rows _ _ _ HC); apply Hrs, Hi).
  rewrite mjoin_sizes in Hc. split.
  - destruct (num_loop_gen (msaNumericRowC mul add two sorted A B M) (eq (msa_clean (cols B))) (fun i l => is_compl_row mul add A B M i l /\
       if sorted then StronglySorted lt (fst <$> l) else fst <$> l = compl_cols A B M i)
      (fun i => length (compl_cols A B M i)) cap rs) with (acc := msa_clean (V:=V) (cols B)) (dn := @nil (nat * V)) as (acc' & ls & E & HF & <-); try reflexivity.
    + intros row acc dn Hr <- Hl. destruct (st_msa_numeric_C mul add two sorted A B M row dn cap) as (l & E & H1 & H2 & H3); auto.
      exists (msa_clean (cols B)), l. auto.
    + simpl. exact Hc.
    + exists ls. auto.
  - destruct (sym_loop_gen (msaSymbolicRowC A B M) (eq (msa_clean_sym (cols B))) (fun i => Z.of_nat (length (compl_cols A B M i))) rs)
      with (acc := msa_clean_sym (V:=V) (cols B)) (dn := @nil Z) as (acc' & E & <-); try reflexivity.
    + intros row acc Hr <-. eexists. split; [|reflexivity]. apply st_msa_symbolic_C; auto.
    + exact E.
Qed.

Lemma seq_mca A B M n rs cap : compatible A B M -> sorted_rows B -> sorted_rows M ->
  Forall (fun i => i < rows A /\ row_cols M i <> [] /\ length (row_cols M i) <= n) rs ->
  length (mjoin (spec_row mul add A B M <$> rs)) <= cap ->
  num_loop (mcaNumericRow mul add A B M) rs (mca_clean n) cap = Ok (mca_clean n, mkOut (mjoin (spec_row mul add A B M <$> rs)) cap) /\
  sym_loop (mcaSymbolicRow A B M) rs (mca_clean n) = Ok (mca_clean n, (fun i => length (spec_row mul add A B M i)) <$> rs).
Proof.
  intros HC HB HM Hrs Hc. rewrite Forall_forall in Hrs. rewrite mjoin_sizes in Hc. split.
  - destruct (num_loop_gen (mcaNumericRow mul add A B M) (eq (mca_clean n)) (fun i l => l = spec_row mul add A B M i)
      (fun i => length (spec_row mul add A B M i)) cap rs) with (acc := mca_clean (V:=V) n) (dn := @nil (nat * V)) as (acc' & ls & E & HF & <-); try reflexivity.
    + intros row acc dn Hr <- Hl. destruct (Hrs row Hr) as (H1 & H2 & H3).
      exists (mca_clean n), (spec_row mul add A B M row). split; [|auto]. apply mcaNumericRow_correct; auto. apply HM. rewrite (co_rows _ _ _ HC). exact H1.
    + simpl. exact Hc.
    + unfold num_loop. rewrite E. rewrite (Forall2_eq_fmap _ _ _ HF). reflexivity.
  - destruct (sym_loop_gen (mcaSymbolicRow A B M) (eq (mca_clean n)) (fun i => length (spec_row mul add A B M i)) rs)
      with (acc := mca_clean (V:=V) n) (dn := @nil nat) as (acc' & E & <-); try reflexivity.
    + intros row acc Hr <-. destruct (Hrs row Hr) as (H1 & H2 & H3). eexists. split; [|reflexivity].
      apply mcaSymbolicRow_correct; auto. apply HM. rewrite (co_rows _ _ _ HC). exact H1.
    + exact E.
Qed.

Lemma seq_hash (w : N) A B M rs cap capreq (acc : hash V) : compatible A B M -> distinct_rows M ->
  Forall (fun i => i < rows A /\ length (row_cols M i) <= capreq) rs ->
  hash_ok acc -> fits w capreq -> adjustSize w capreq = Ok (length (h_tab acc)) ->
  length (mjoin (spec_row mul add A B M <$> rs)) <= cap ->
  (exists acc', num_loop (hashNumericRow w mul add A B M) rs acc cap = Ok (acc', mkOut (mjoin (spec_row mul add A B M <$> rs)) cap) /\
     hash_ok acc' /\ length (h_tab acc') = length (h_tab acc)) /\
  (exists acc', sym_loop (hashSymbolicRow w A B M) rs acc = Ok (acc', (fun i => length (spec_row mul add A B M i)) <$> rs) /\
     hash_ok acc' /\ length (h_tab acc') = length (h_tab acc)).
Proof.
  intros HC Hd Hrs Hok Hf Ha Hc. rewrite Forall_forall in Hrs. rewrite mjoin_sizes in Hc.
  assert (HM : forall i, i < rows A -> NoDup (row_cols M i)) by (intros i Hi; apply Hd; rewrite (co_rows _ _ _ HC); exact Hi). split.
  - destruct (num_loop_gen (hashNumericRow w mul add A B M) (fun a => hash_ok a /\ length (h_tab a) = length (h_tab acc)) (fun i l => l = spec_row mul add A B M i)
      (fun i => length (spec_row mul add A B M i)) cap rs) with (acc := acc) (dn := @nil (nat * V)) as (acc' & ls & E & HF & HP); auto.
    + intros row a dn Hr [Ho Hl'] Hl. destruct (Hrs row Hr) as (H1 & H2).
      destruct (st_hash_numeric w mul add A B M row a dn cap capreq) as (a' & E & H3 & H4); auto; [congruence|].
      exists a', (spec_row mul add A B M row). split; [exact E|]. repeat split; try apply H3; congruence.
    + exists acc'. split; [|exact HP]. unfold num_loop. rewrite E. rewrite (Forall2_eq_fmap _ _ _ HF). reflexivity.
  - destruct (sym_loop_gen (hashSymbolicRow w A B M) (fun a => hash_ok a /\ length (h_tab a) = length (h_tab acc)) (fun i => length (spec_row mul add A B M i)) rs)
      with (acc := acc) (dn := @nil nat) as (acc' & E & HP); auto.
    + intros row a Hr [Ho Hl']. destruct (Hrs row Hr) as (H1 & H2).
      destruct (hashSymbolicRow_correct w mul add A B M row a capreq) as (a' & E & H3 & H4); auto; [congruence|].
      exists a'. split; [exact E|]. split; [exact H3|congruence].
    + exists acc'. auto.
Qed.

Lemma seq_hashC (w : N) (sorted : bool) A B M (rs : list nat) (flops : nat -> nat) cap capreq (acc : hash V) : compatible A B M -> distinct_rows M ->
  Forall (fun i => i < rows A /\ length (first_touch (touched_cols A B i)) <= flops i /\ length (row_cols M i) + flops i <= capreq) rs ->
  hash_ok acc -> fits w capreq -> adjustSize w capreq = Ok (length (h_tab acc)) ->
  length (mjoin (compl_cols A B M <$> rs)) <= cap ->
  (exists acc' ls, num_loop (fun i => hashNumericRowC w mul add sorted A B M i (flops i)) rs acc cap = Ok (acc', mkOut (mjoin ls) cap) /\
     Forall2 (fun i l => is_compl_row mul add A B M i l /\
       if sorted then StronglySorted lt (fst <$> l) else fst <$> l = compl_cols A B M i) rs ls /\
     hash_ok acc' /\ length (h_tab acc') = length (h_tab acc)) /\
  (exists acc', sym_loop (fun i => hashSymbolicRowC w A B M i (flops i)) rs acc = Ok (acc', (fun i => Z.of_nat (length (compl_cols A B M i))) <$> rs) /\
     hash_ok acc' /\ length (h_tab acc') = length (h_tab acc)).
Proof.
  intros HC Hd Hrs Hok Hf Ha Hc. rewrite Forall_forall in Hrs. rewrite mjoin_sizes in Hc.
  assert (HM : forall i, i < rows A -> NoDup (row_cols M i)) by (intros i Hi; apply Hd; rewrite (co_rows _ _ _ HC); exact Hi).
  assert (Hft : forall i, length (compl_cols A B M i) <= length (first_touch (touched_cols A B i))) by (intros i; apply filter_length). split.
  - destruct (num_loop_gen (fun i => hashNumericRowC w mul add sorted A B M i (flops i)) (fun a => hash_ok a /\ length (h_tab a) = length (h_tab acc))
      (fun i l => is_compl_row mul add A B M i l /\ if sorted then StronglySorted lt (fst <$> l) else fst <$> l = compl_cols A B M i)
      (fun i => length (compl_cols A B M i)) cap rs) with (acc := acc) (dn := @nil (nat * V)) as (acc' & ls & E & HF & HP); auto.
    + intros row a dn Hr [Ho Hl'] Hl. destruct (Hrs row Hr) as (H1 & H2 & H2').
      destruct (st_hash_numeric_C w mul add sorted A B M row (flops row) a dn cap capreq) as (a' & l & E & H3 & H4 & H5 & H6 & H7); auto; [congruence|specialize (Hft row); lia|].
      exists a', l. split; [exact E|]. split; [auto|]. split; [auto|]. split; [auto|congruence].
    + exists acc', ls. auto.
  - destruct (sym_loop_gen (fun i => hashSymbolicRowC w A B M i (flops i)) (fun a => hash_ok a /\ length (h_tab a) = length (h_tab acc)) (fun i => Z.of_nat (length (compl_cols A B M i))) rs)
      with (acc := acc) (dn := @nil Z) as (acc' & E & HP); auto.
    + intros row a Hr [Ho Hl']. destruct (Hrs row Hr) as (H1 & H2 & H2').
      destruct (st_hash_symbolic_C w A B M row (flops row) a capreq) as (a' & E & H3 & H4); auto; [congruence|].
      exists a'. split; [exact E|]. split; [exact H3|congruence].
    + exists acc'. auto.
Qed.

Lemma seq_heap itmax (insp : N) A B M rs cap h : compatible A B M -> sorted_rows B -> sorted_rows M ->
  Forall (fun i => i < rows A /\ row_cols M i <> [] /\ length (row_entries A i) <= hcap h) rs -> cols B <= itmax ->
  (insp < 2 \/ insp = 2 ^ 64 - 1 \/ N.of_nat (nnz M) + insp < 2 ^ 64)%N ->
  hp h = [] -> length (mjoin (spec_row mul add A B M <$> rs)) <= cap ->
  (exists h' ls, num_loop (heapNumericRow mul add itmax insp A B M) rs h cap = Ok (h', mkOut (mjoin ls) cap) /\
     Forall2 (fun i l => fst <$> l = fst <$> spec_row mul add A B M i /\
       forall j v, (j, v) ∈ l -> sum_in_some_order mul add A B i j v) rs ls /\ hp h' = [] /\ hcap h' = hcap h) /\
  (exists h', sym_loop (heapSymbolicRow itmax insp A B M) rs h = Ok (h', (fun i => length (spec_row mul add A B M i)) <$> rs) /\
     hp h' = [] /\ hcap h' = hcap h).
Proof.
  intros HC HB HM Hrs Hit Hins Hh Hc. rewrite Forall_forall in Hrs. rewrite mjoin_sizes in Hc.
  assert (HS : forall i, i < rows A -> StronglySorted lt (row_cols M i)) by (intros i Hi; apply HM; rewrite (co_rows _ _ _ HC); exact Hi). split.
  - destruct (num_loop_gen (heapNumericRow mul add itmax insp A B M) (fun a => hp a = [] /\ hcap a = hcap h)
      (fun i l => fst <$> l = fst <$> spec_row mul add A B M i /\ forall j v, (j, v) ∈ l -> sum_in_some_order mul add A B i j v)
      (fun i => length (spec_row mul add A B M i)) cap rs) with (acc := h) (dn := @nil (nat * V)) as (acc' & ls & E & HF & HP); auto.
    + intros row a dn Hr [Ho Hl'] Hl. destruct (Hrs row Hr) as (H1 & H2 & H3).
      destruct (heapNumericRow_correct mul add itmax insp A B M row) as (l & L1 & L2 & L3); auto.
      destruct (L3 a dn cap) as (a' & E & H4 & H5 & _); auto; [congruence|].
      exists a', l. split; [exact E|]. split; [auto|]. split; [|split; [exact H4|congruence]].
      rewrite <- (fmap_length fst l), L1. apply fmap_length.
    + exists acc', ls. tauto.
  - destruct (sym_loop_gen (heapSymbolicRow itmax insp A B M) (fun a => hp a = [] /\ hcap a = hcap h) (fun i => length (spec_row mul add A B M i)) rs)
      with (acc := h) (dn := @nil nat) as (acc' & E & HP); auto.
    + intros row a Hr [Ho Hl']. destruct (Hrs row Hr) as (H1 & H2 & H3).
      destruct (heapSymbolicRow_correct mul add itmax insp A B M row) with (h := a) as (a' & E & H4 & H5 & _); auto; [congruence|].
      exists a'. split; [exact E|]. split; [exact H4|congruence].
    + exists acc'. tauto.
Qed.

Lemma seq_heapC itmax A B M rs cap h : compatible A B M -> sorted_rows B -> sorted_rows M ->
  Forall (fun i => i < rows A /\ row_cols M i <> [] /\ length (row_entries A i) <= hcap h) rs -> cols B <= itmax ->
  hp h = [] -> length (mjoin (compl_cols A B M <$> rs)) <= cap ->
  (exists h' ls, num_loop (heapNumericRowC mul add itmax A B M) rs h cap = Ok (h', mkOut (mjoin ls) cap) /\
     Forall2 (fun i l => StronglySorted lt (fst <$> l) /\ (forall j, j ∈ fst <$> l <-> j ∈ compl_cols A B M i) /\
       forall j v, (j, v) ∈ l -> sum_in_some_order mul add A B i j v) rs ls /\ hp h' = [] /\ hcap h' = hcap h) /\
  (exists h', sym_loop (heapSymbolicRowC itmax A B M) rs h = Ok (h', (fun i => length (compl_cols A B M i)) <$> rs) /\
     hp h' = [] /\ hcap h' = hcap h).
Proof.
  intros HC HB HM Hrs Hit Hh Hc. rewrite Forall_forall in Hrs. rewrite mjoin_sizes in Hc.
  assert (HS : forall i, i < rows A -> StronglySorted lt (row_cols M i)) by (intros i Hi; apply HM; rewrite (co_rows _ _ _ HC); exact Hi). split.
  - destruct (num_loop_gen (heapNumericRowC mul add itmax A B M) (fun a => hp a = [] /\ hcap a = hcap h)
      (fun i l => StronglySorted lt (fst <$> l) /\ (forall j, j ∈ fst <$> l <-> j ∈ compl_cols A B M i) /\
         forall j v, (j, v) ∈ l -> sum_in_some_order mul add A B i j v)
      (fun i => length (compl_cols A B M i)) cap rs) with (acc := h) (dn := @nil (nat * V)) as (acc' & ls & E & HF & HP); auto.
    + intros row a dn Hr [Ho Hl'] Hl. destruct (Hrs row Hr) as (H1 & H2 & H3).
      destruct (heapNumericRowC_correct mul add itmax A B M row) as (l & L1 & L2 & L3 & L4); auto.
      destruct (L4 a dn cap) as (a' & E & H4 & H5 & _); auto; [congruence|].
      exists a', l. split; [exact E|]. split; [auto|]. split; [|split; [exact H4|congruence]].
      rewrite <- (fmap_length fst l). apply Permutation_length, NoDup_Permutation.
      * apply SSorted_NoDup, L1.
      * apply compl_cols_NoDup.
      * exact L2.
    + exists acc', ls. tauto.
  - destruct (sym_loop_gen (heapSymbolicRowC itmax A B M) (fun a => hp a = [] /\ hcap a = hcap h) (fun i => length (compl_cols A B M i)) rs)
      with (acc := h) (dn := @nil nat) as (acc' & E & HP); auto.
    + intros row a Hr [Ho Hl']. destruct (Hrs row Hr) as (H1 & H2 & H3).
      destruct (heapSymbolicRowC_ok itmax A B M row) with (h := a) as (a' & E & H4 & H5 & _); auto; [congruence|].
      exists a'. split; [exact E|]. split; [exact H4|congruence].
    + exists acc'. tauto.
Qed.

(** ** Sizes *)
Lemma sumOver_mjoin {T} (f : nat -> list T) rb re : length (mjoin (f <$> seq rb (re - rb))) = sumOver (fun i => length (f i)) rb re.
Proof. apply mjoin_sizes. Qed.


Lemma flopsM_known A B M flops total : compatible A B M -> calculateFlopsM_always A B M (replicate (rows A) None) (Some <$> flops) total ->
  flops = nprodsM A B M <$> seq 0 (rows A).
Proof.
  intros HC H. pose proof (calculateFlopsM_ok A B M (replicate (rows A) None) HC) as H'.
  rewrite drop_ge, app_nil_r, fmap_Some_seq in H' by (rewrite replicate_length; lia). rewrite replicate_length in H'. specialize (H' ltac:(lia)).
  eapply parfor_unique; eauto.
Qed.
Lemma flops_known A B M flops total : compatible A B M -> calculateFlops_always A B (replicate (rows A) None) (Some <$> flops) total ->
  flops = nprods A B <$> seq 0 (rows A).
Proof.
  intros HC H. pose proof (calculateFlops_ok A B (replicate (rows A) None) ltac:(apply HC) ltac:(apply HC) ltac:(apply HC)) as H'.
  rewrite drop_ge, app_nil_r, fmap_Some_seq in H' by (rewrite replicate_length; lia). rewrite replicate_length in H'. specialize (H' ltac:(lia)).
  eapply parfor_unique; eauto.
Qed.
Lemma estimate_ok (rb re : nat) (flops : list nat) M (f : nat -> nat) : wf M -> rb <= re <= rows M -> (forall i, i < rows M -> flops !! i = Some (f i)) ->
  estimateResultSize rb re flops M = Ok (sumOver (fun i => Nat.min (f i) (length (row_entries M i))) rb re).
Proof.
  intros HM Hre Hf. unfold estimateResultSize.
  match goal with |- for_ rb re ?bd _ = _ =>
  destruct (for_inv (fun i s => s = sumOver (fun i => Nat.min (f i) (length (row_entries M i))) rb i) bd rb re 0) as (s' & -> & ->); [lia| | |reflexivity] end.
  - unfold sumOver. rewrite Nat.sub_diag. reflexivity.
  - intros i s Hi ->. rewrite (rowLen_ok M i HM ltac:(lia)), (get_Some _ _ _ (Hf i ltac:(lia))).
    eexists. split; [reflexivity|]. rewrite Nat.add_1_r, sumOver_S by lia. reflexivity.
Qed.

Lemma buffer_plain A B M flops total rb re cA cM cF : compatible A B M -> distinct_rows M -> rb <= re <= rows A ->
  calculateFlopsM_always A B M (replicate (rows A) None) (Some <$> flops) total ->
  exists sizeC mA mM mF, scanInputs false true cA cM cF rb re flops A M = Ok (sizeC, mA, mM, mF) /\
    estimateResultSize rb re flops M = Ok sizeC /\
    length (mjoin (spec_row mul add A B M <$> seq rb (re - rb))) <= sizeC.
Proof.
  intros HC Hd Hre Hf. apply flopsM_known in Hf; [|exact HC]. subst flops.
  assert (Hl : forall i, i < rows A -> (nprodsM A B M <$> seq 0 (rows A)) !! i = Some (nprodsM A B M i)) by (intros i Hi; rewrite list_lookup_fmap, lookup_seq_lt by exact Hi; reflexivity).
  do 4 eexists. split; [apply scanInputs_ok with (f := nprodsM A B M); [apply HC|apply HC|apply HC|exact Hre|exact Hl]|].
  split; [apply estimate_ok; [apply HC|rewrite (co_rows _ _ _ HC); exact Hre|rewrite (co_rows _ _ _ HC); exact Hl]|].
  rewrite sumOver_mjoin. apply sumOver_le. intros i Hi. apply Nat.min_glb.
  - apply plain_len, Hd. rewrite (co_rows _ _ _ HC). lia.
  - etransitivity; [apply plain_length_mask|]. unfold row_cols. rewrite fmap_length. reflexivity.
Qed.
Lemma buffer_compl A B M flops total rb re cA cM cF : compatible A B M -> rb <= re <= rows A ->
  calculateFlops_always A B (replicate (rows A) None) (Some <$> flops) total ->
  exists sizeC mA mM mF, scanInputs true true cA cM cF rb re flops A M = Ok (sizeC, mA, mM, mF) /\
    length (mjoin (compl_cols A B M <$> seq rb (re - rb))) <= sizeC.
Proof.
  intros HC Hre Hf. apply (flops_known A B M) in Hf; [|exact HC]. subst flops.
  assert (Hl : forall i, i < rows A -> (nprods A B <$> seq 0 (rows A)) !! i = Some (nprods A B i)) by (intros i Hi; rewrite list_lookup_fmap, lookup_seq_lt by exact Hi; reflexivity).
  do 4 eexists. split; [apply scanInputs_ok with (f := nprods A B); [apply HC|apply HC|apply HC|exact Hre|exact Hl]|].
  rewrite sumOver_mjoin. apply sumOver_le. intros i Hi. apply compl_len.
Qed.
End Seq.

(** ** Combined statements for C25, C26, C27 *)
Section Two.
Context {V W : Type}.
Lemma same_shape_pattern (A B : csr V) (A' B' : csr W) (C : csr V) (C' : csr W) R R' :
  product_matrix A B C R -> product_matrix A' B' C' R' -> rows A = rows A' -> cols B = cols B' ->
  (forall i l l', i < rows A -> R i l -> R' i l' -> fst <$> l = fst <$> l') -> same_pattern C C' /\ nnz C = nnz C'.
Proof.
  intros (Hw & Hr & Hc & Hrow) (Hw' & Hr' & Hc' & Hrow') Er Ec H. apply pattern_of_rows; try assumption; try congruence.
  intros i Hi. unfold row_cols. rewrite Hr in Hi. apply (H i); [exact Hi|apply Hrow, Hi|apply Hrow'; congruence].
Qed.
Lemma sorted_unique (l l' : list nat) : StronglySorted lt l -> StronglySorted lt l' -> (forall x, x ∈ l <-> x ∈ l') -> l = l'.
Proof.
  intros H1 H2 He. assert (Ha : AntiSymm eq lt) by (intros x y; lia). apply (StronglySorted_unique lt); [exact H1|exact H2|].
  apply NoDup_Permutation; [apply SSorted_NoDup, H1|apply SSorted_NoDup, H2|exact He].
Qed.
Lemma compl_keys mul add (A B M : csr V) i l : is_compl_row mul add A B M i l -> forall j, j ∈ fst <$> l <-> j ∈ compl_cols A B M i.
Proof.
  intros Hl j. pose proof (crow_is_compl mul add false A B M i) as Hc. pose proof (crow_keys mul add false A B M i) as Hk. cbn in Hk.
  destruct Hl as [_ Hl]. destruct Hc as [_ Hc]. rewrite <- Hk, !elem_of_list_fmap.
  split; intros ([j' v] & -> & Hin); exists (j', v); (split; [reflexivity|]); [apply Hc, Hl, Hin|apply Hl, Hc, Hin].
Qed.
End Two.

Lemma pattern_compl_rows {V W} mul add mul' add' (sorted : bool) (A B M : csr V) (A' B' M' : csr W) i l l' :
  compatible A B M -> compatible A' B' M' -> same_pattern A A' -> same_pattern B B' -> same_pattern M M' ->
  (is_compl_row mul add A B M i l /\ if sorted then StronglySorted lt (fst <$> l) else fst <$> l = compl_cols A B M i) ->
  (is_compl_row mul' add' A' B' M' i l' /\ if sorted then StronglySorted lt (fst <$> l') else fst <$> l' = compl_cols A' B' M' i) ->
  fst <$> l = fst <$> l'.
Proof.
  intros HC HC' HA HB HM [H1 H2] [H1' H2']. pose proof (pattern_compl A B M A' B' M' i HC HC' HA HB HM) as E.
  destruct sorted; [|congruence]. apply sorted_unique; [assumption..|]. intros x. rewrite (compl_keys _ _ _ _ _ _ _ H1), (compl_keys _ _ _ _ _ _ _ H1'), E. reflexivity.
Qed.

Section Pat.
Context {V W : Type} (mul add : V -> V -> V) (mul' add' : W -> W -> W) (A B M : csr V) (A' B' M' : csr W).
Context (HC : compatible A B M) (HC' : compatible A' B' M') (HA : same_pattern A A') (HB : same_pattern B B') (HM : same_pattern M M').
Context (C : csr V) (C' : csr W).
Lemma pat_shape : rows A = rows A' /\ cols B = cols B'.
Proof. destruct HA as [-> _]. destruct HB as (_ & -> & _). auto. Qed.
Lemma pat_plain : product_matrix A B C (fun i l => l = spec_row mul add A B M i) -> product_matrix A' B' C' (fun i l => l = spec_row mul' add' A' B' M' i) ->
  same_pattern C C' /\ nnz C = nnz C'.
Proof.
  intros H H'. destruct pat_shape as [Hr Hc]. eapply same_shape_pattern; eauto. intros i l l' Hi -> ->. apply pattern_spec; assumption.
Qed.
Lemma pat_compl (sorted : bool) :
  product_matrix A B C (fun i l => is_compl_row mul add A B M i l /\ if sorted then StronglySorted lt (fst <$> l) else fst <$> l = compl_cols A B M i) ->
  product_matrix A' B' C' (fun i l => is_compl_row mul' add' A' B' M' i l /\ if sorted then StronglySorted lt (fst <$> l) else fst <$> l = compl_cols A' B' M' i) ->
  same_pattern C C' /\ nnz C = nnz C'.
Proof.
  intros H H'. destruct pat_shape as [Hr Hc]. eapply same_shape_pattern; eauto. intros i l l' Hi H1 H2.
  exact (pattern_compl_rows mul add mul' add' sorted A B M A' B' M' i l l' HC HC' HA HB HM H1 H2).
Qed.
Lemma pat_heap :
  product_matrix A B C (fun i l => fst <$> l = fst <$> spec_row mul add A B M i /\ forall j v, (j, v) ∈ l -> sum_in_some_order mul add A B i j v) ->
  product_matrix A' B' C' (fun i l => fst <$> l = fst <$> spec_row mul' add' A' B' M' i /\ forall j v, (j, v) ∈ l -> sum_in_some_order mul' add' A' B' i j v) ->
  same_pattern C C' /\ nnz C = nnz C'.
Proof.
  intros H H'. destruct pat_shape as [Hr Hc]. eapply same_shape_pattern; eauto. intros i l l' Hi [-> _] [-> _]. apply pattern_spec; assumption.
Qed.
Lemma pat_heapC :
  product_matrix A B C (fun i l => StronglySorted lt (fst <$> l) /\ (forall j, j ∈ fst <$> l <-> j ∈ compl_cols A B M i) /\
    forall j v, (j, v) ∈ l -> sum_in_some_order mul add A B i j v) ->
  product_matrix A' B' C' (fun i l => StronglySorted lt (fst <$> l) /\ (forall j, j ∈ fst <$> l <-> j ∈ compl_cols A' B' M' i) /\
    forall j v, (j, v) ∈ l -> sum_in_some_order mul' add' A' B' i j v) ->
  same_pattern C C' /\ nnz C = nnz C'.
Proof.
  intros H H'. destruct pat_shape as [Hr Hc]. eapply same_shape_pattern; eauto. intros i l l' Hi (S1 & K1 & _) (S2 & K2 & _).
  apply sorted_unique; [assumption..|]. intros x. rewrite K1, K2, (pattern_compl A B M A' B' M' i HC HC' HA HB HM). reflexivity.
Qed.
End Pat.

(** Any driver's plain and complemented results. *)
Lemma partition_drivers {V} (mul add : V -> V -> V) (A B M C Cc : csr V) (P : nat -> list (nat * V) -> Prop) :
  product_matrix A B C (fun i l => l = spec_row mul add A B M i) ->
  product_matrix A B Cc (fun i l => is_compl_row mul add A B M i l /\ P i l) ->
  forall i j, i < rows A ->
    (forall v, prod_entry mul add A B i j = Some v <-> (j, v) ∈ row_entries C i \/ (j, v) ∈ row_entries Cc i) /\
    ~ (j ∈ row_cols C i /\ j ∈ row_cols Cc i).
Proof.
  intros HP HPc i j Hi. assert (HPc' : product_matrix A B Cc (fun i l => is_compl_row mul add A B M i l)).
  { destruct HPc as (H1 & H2 & H3 & H4). repeat (split; [assumption|]). intros k Hk. apply H4, Hk. }
  split.
  - intros v. apply (DriverStatements.partition mul add A B M C Cc i j v Hi HP HPc').
  - intros [H1 H2]. assert (Hv : exists v, (j, v) ∈ row_entries C i).
    { unfold row_cols in H1. apply elem_of_list_fmap in H1 as ([j' v] & -> & Hin). exists v. exact Hin. }
    destruct Hv as [v _]. apply (DriverStatements.partition mul add A B M C Cc i j v Hi HP HPc'). auto.
Qed.

(** No rows: the scan of the empty flop array stores to dst[0]. *)
Lemma no_rows_1p {V} (alg : rowalg V) iA iB iM iC nt sc s s' (A : csr V) : s !! iA = Some (OMat A) -> rows A = 0 ->
  ~ driver1p_always alg iA iB iM iC nt sc s s'.
Proof.
  intros HA Hr (A' & B & M & HA' & _ & _ & _ & f & c & t & [_ Hp] & _). unfold deref in HA'. rewrite HA in HA'. injection HA' as <-.
  rewrite Hr in Hp. unfold excScan_always in Hp. cbn in Hp. discriminate.
Qed.
Lemma no_rows_2p {V} (alg : rowalg V) iA iB iM iC iR nt sc s s' (A : csr V) : s !! iA = Some (OMat A) -> rows A = 0 ->
  ~ driver2p_always alg iA iB iM iC iR nt sc s s'.
Proof.
  intros HA Hr (A' & B & M & HA' & _ & _ & _ & f & c & t & [_ Hp] & _). unfold deref in HA'. rewrite HA in HA'. injection HA' as <-.
  rewrite Hr in Hp. unfold excScan_always in Hp. cbn in Hp. discriminate.
Qed.

(** Operands without entries. *)
Section NoEntries.
Context {V : Type} (mul add : V -> V -> V).
Lemma no_entries_row (X : csr V) i : wf X -> nnz X = 0 -> row_entries X i = [].
Proof.
  intros HX H0. unfold row_entries. destruct (rowptr X !! i); [|reflexivity]. destruct (rowptr X !! (i + 1)); [|reflexivity].
  assert (E : colids X = []) by (apply nil_length_inv; rewrite (wf_colids _ HX); exact H0). rewrite E. cbn [zip zip_with]. rewrite drop_nil, take_nil. reflexivity.
Qed.
Lemma no_entries_touched (A B : csr V) i : wf A -> wf B -> nnz A = 0 \/ nnz B = 0 -> touched_cols A B i = [].
Proof.
  intros HA HB [H|H]; unfold touched_cols.
  - rewrite (no_entries_row A) by assumption. reflexivity.
  - induction (row_entries A i) as [|k l IH]; [reflexivity|]. rewrite fmap_cons. unfold row_cols at 1. rewrite (no_entries_row B) by assumption. exact IH.
Qed.
Lemma no_entries_compl (A B M : csr V) i : wf A -> wf B -> nnz A = 0 \/ nnz B = 0 -> compl_cols A B M i = [].
Proof. intros HA HB H. unfold compl_cols. rewrite no_entries_touched by assumption. reflexivity. Qed.
Lemma no_entries_spec (A B M : csr V) i : compatible A B M -> nnz A = 0 \/ nnz B = 0 \/ nnz M = 0 -> spec_row mul add A B M i = [].
Proof.
  intros HC H. assert (K : fst <$> spec_row mul add A B M i = []); [|apply fmap_nil_inv in K; exact K].
  rewrite spec_row_keys. assert (D : (nnz A = 0 \/ nnz B = 0) \/ nnz M = 0) by tauto. clear H. destruct D as [H|H].
  - rewrite (no_entries_touched A B) by (try apply HC; exact H). induction (row_cols M i) as [|c l IH]; [reflexivity|].
    rewrite filter_cons_False; [exact IH|]. set_solver.
  - unfold row_cols. rewrite (no_entries_row M) by (try apply HC; exact H). reflexivity.
Qed.
Lemma empty_product (A B C : csr V) (R : nat -> list (nat * V) -> Prop) : product_matrix A B C R -> (forall i l, i < rows A -> R i l -> l = []) ->
  C = mkCsr (rows A) (cols B) 0 (replicate (rows A + 1) 0) [] [].
Proof.
  intros (Hw & Hr & Hc & HR) H. apply (product_unique A B _ _ (fun _ => [])).
  - repeat (split; [assumption|]). intros i Hi. apply (H i _ Hi), HR, Hi.
  - split; [|split; [reflexivity|split; [reflexivity|]]].
    + constructor; cbn; try reflexivity.
      * apply replicate_length.
      * rewrite lookup_replicate_2 by lia. reflexivity.
      * intros i a b Ha Hb. apply lookup_replicate in Ha as [-> _]. lia.
      * rewrite lookup_replicate_2 by lia. reflexivity.
      * intros p c Hp. discriminate.
    + intros i Hi. unfold row_entries. cbn. rewrite !lookup_replicate_2 by lia. reflexivity.
Qed.
End NoEntries.
