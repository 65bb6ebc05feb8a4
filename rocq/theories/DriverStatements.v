(** The drivers with the repository's row algorithms: combined statements. *)
From Coq Require Import NArith ZArith.
From stdpp Require Import numbers.
From Verif Require Import MemModel BaseProofs ComplProofs MsaModel HashModel McaProofs HeapModel HeapProofs HeapStatements WorkModel WorkProofs ConcProofs
  Assemble DriverModel DriverBase DriverProofs AlgModel AlgProofs.
From Verif Require Import Base Spec.

(** [C] is a well-formed matrix with the shape of A*B, and its rows are as [R] demands. *)
Definition product_matrix {V} (A B C : csr V) (R : nat -> list (nat * V) -> Prop) : Prop :=
  wf C /\ rows C = rows A /\ cols C = cols B /\ forall i, i < rows A -> R i (row_entries C i).

(** The one-phase driver, given objects that hold A, B and M, always ends with [C] in the output object
    and every other object as before: for every number of threads, every schedule, every address
    and content of the scratch memory.  The output object may be new, or any object, also one of
    the inputs. *)
Definition yields1p {V} (alg : rowalg V) (A B M C : csr V) : Prop :=
  forall (nt iA iB iM iC : nat) (sc : scratch) (s : gmap nat (obj V)), 1 <= nt ->
    s !! iA = Some (OMat A) -> s !! iB = Some (OMat B) -> s !! iM = Some (OMat M) ->
    driver1p_always alg iA iB iM iC nt sc s (<[iC := OMat C]> s).
(** The same for the two-phase driver; [iR] is the object it creates. *)
Definition yields2p {V} (alg : rowalg V) (A B M C : csr V) : Prop :=
  forall (nt iA iB iM iC iR : nat) (sc : scratch) (s : gmap nat (obj V)), 1 <= nt ->
    s !! iA = Some (OMat A) -> s !! iB = Some (OMat B) -> s !! iM = Some (OMat M) -> s !! iR = None -> iC <> iR ->
    driver2p_always alg iA iB iM iC iR nt sc s (<[iC := OMat C]> s).

Section St.
Context {V : Type}.

Lemma contract_1p (alg : rowalg V) A B M rspec : compatible A B M -> 1 <= rows A -> ra_ok alg A B M rspec ->
  yields1p alg A B M (assemble rspec (rows A) (cols B)).
Proof. intros HC Hr Hok nt iA iB iM iC sc s Hnt HA HB HM. eapply driver1p_ok; eassumption. Qed.
Lemma contract_2p (alg : rowalg V) A B M rspec : compatible A B M -> 1 <= rows A -> ra_ok alg A B M rspec ->
  yields2p alg A B M (assemble rspec (rows A) (cols B)).
Proof. intros HC Hr Hok nt iA iB iM iC iR sc s Hnt HA HB HM HR Hne. eapply driver2p_ok; eassumption. Qed.
Lemma contract_product (alg : rowalg V) A B M rspec (R : nat -> list (nat * V) -> Prop) : ra_ok alg A B M rspec ->
  (forall i, i < rows A -> R i (rspec i)) -> product_matrix A B (assemble rspec (rows A) (cols B)) R.
Proof.
  intros Hok HR. split; [apply assemble_wf; intros i c v Hi Hin; eapply ok_cols; eauto|]. split; [reflexivity|]. split; [reflexivity|].
  intros i Hi. rewrite assemble_row by exact Hi. apply HR, Hi.
Qed.

Lemma contract_both (alg : rowalg V) A B M rspec (R : nat -> list (nat * V) -> Prop) : compatible A B M -> 1 <= rows A -> ra_ok alg A B M rspec ->
  (forall i, i < rows A -> R i (rspec i)) ->
  exists C, product_matrix A B C R /\ yields1p alg A B M C /\ yields2p alg A B M C.
Proof.
  intros HC Hr Hok HR. exists (assemble rspec (rows A) (cols B)).
  split; [eapply contract_product; eauto|]. split; [apply contract_1p|apply contract_2p]; assumption.
Qed.

Context (mul add : V -> V -> V).

Lemma msa_drivers A B M two sz : compatible A B M -> distinct_rows M -> 1 <= rows A -> (0 < sz)%N ->
  ((N.of_nat (cols B) + 1) * (sz + 1) + 8 < 2 ^ 64)%N ->
  exists C, product_matrix A B C (fun i l => l = spec_row mul add A B M i) /\
    yields1p (msaAlg mul add two sz) A B M C /\ yields2p (msaAlg mul add two sz) A B M C.
Proof.
  intros HC Hd Hr Hs Hb. eapply contract_both; [exact HC|exact Hr|apply msaAlg_ok; assumption|]. reflexivity.
Qed.
Lemma compl_order sorted A B M i : is_compl_row mul add A B M i (crow mul add sorted A B M i) /\
  (if sorted then StronglySorted lt (fst <$> crow mul add sorted A B M i) else fst <$> crow mul add sorted A B M i = compl_cols A B M i).
Proof. split; [apply crow_is_compl|]. destruct sorted; [apply crow_sorted|exact (crow_keys mul add false A B M i)]. Qed.

Lemma msaC_drivers A B M two (sorted : bool) sz : compatible A B M -> distinct_rows M -> 1 <= rows A -> (0 < sz)%N ->
  ((N.of_nat (cols B) + 1) * (sz + 1) + 8 < 2 ^ 64)%N ->
  exists C, product_matrix A B C (fun i l => is_compl_row mul add A B M i l /\
      if sorted then StronglySorted lt (fst <$> l) else fst <$> l = compl_cols A B M i) /\
    yields1p (msaAlgC mul add two sorted sz) A B M C /\ yields2p (msaAlgC mul add two sorted sz) A B M C.
Proof.
  intros HC Hd Hr Hs Hb. eapply contract_both; [exact HC|exact Hr|apply msaAlgC_ok; assumption|]. intros i _. apply compl_order.
Qed.
Lemma mca_drivers A B M sz mx : compatible A B M -> sorted_rows B -> sorted_rows M -> 1 <= rows A -> (0 < sz)%N ->
  (forall i, i < rows A -> length (row_cols M i) <= mx) -> ((N.of_nat mx + 1) * sz + 8 < 2 ^ 64)%N ->
  exists C, product_matrix A B C (fun i l => l = spec_row mul add A B M i) /\
    yields1p (mcaAlg mul add sz) A B M C /\ yields2p (mcaAlg mul add sz) A B M C.
Proof.
  intros HC HB HM Hr Hs Hm Hb. eapply contract_both; [exact HC|exact Hr|eapply mcaAlg_ok; eassumption|]. reflexivity.
Qed.
Lemma hash_drivers A B M w sK sN mx : compatible A B M -> distinct_rows M -> 1 <= rows A -> (0 < sK)%N -> (0 < sN)%N ->
  (forall i, i < rows A -> length (row_cols M i) <= mx) -> fits w mx ->
  ((8 * (N.of_nat mx + 2) + 1) * N.max sK sN < 2 ^ 64)%N -> (N.lcm sK sN + 8 < 2 ^ 64)%N ->
  exists C, product_matrix A B C (fun i l => l = spec_row mul add A B M i) /\
    yields1p (hashAlg mul add w sK sN) A B M C /\ yields2p (hashAlg mul add w sK sN) A B M C.
Proof.
  intros HC Hd Hr HK HN Hm Hf Hb Hl. eapply contract_both; [exact HC|exact Hr|eapply hashAlg_ok; eassumption|]. reflexivity.
Qed.
Lemma hashC_drivers A B M w sK sN (sorted : bool) mx fx : compatible A B M -> distinct_rows M -> 1 <= rows A -> (0 < sK)%N -> (0 < sN)%N ->
  (forall i, i < rows A -> length (row_cols M i) <= mx) -> (forall i, i < rows A -> length (touched_cols A B i) <= fx) -> fits w (mx + fx) ->
  ((8 * (N.of_nat (mx + fx) + 2) + 1) * N.max sK sN < 2 ^ 64)%N -> (N.lcm sK sN + 8 < 2 ^ 64)%N ->
  exists C, product_matrix A B C (fun i l => is_compl_row mul add A B M i l /\
      if sorted then StronglySorted lt (fst <$> l) else fst <$> l = compl_cols A B M i) /\
    yields1p (hashAlgC mul add w sK sN sorted) A B M C /\ yields2p (hashAlgC mul add w sK sN sorted) A B M C.
Proof.
  intros HC Hd Hr HK HN Hm Hx Hf Hb Hl.
  eapply contract_both; [exact HC|exact Hr|eapply hashAlgC_ok; try eassumption|intros i _; apply compl_order].
  intros i Hi. rewrite <- touched_length. apply Hx, Hi.
Qed.
Lemma heap_drivers A B M itmax insp sz mx : compatible A B M -> sorted_rows B -> sorted_rows M -> 1 <= rows A -> (0 < sz)%N ->
  cols B <= itmax -> insp_ok insp (nnz M) ->
  (forall i, i < rows A -> length (row_cols A i) <= mx) -> ((N.of_nat mx + 1) * sz + 8 < 2 ^ 64)%N ->
  exists C, product_matrix A B C (fun i l => fst <$> l = fst <$> spec_row mul add A B M i /\
      forall j v, (j, v) ∈ l -> sum_in_some_order mul add A B i j v) /\
    yields1p (heapAlg mul add itmax insp sz) A B M C /\ yields2p (heapAlg mul add itmax insp sz) A B M C.
Proof.
  intros HC HB HM Hr Hs Hit Hins Hm Hb.
  destruct (heapAlg_ok mul add A B M HC itmax insp sz mx) as (rspec & Hok & HR); try assumption.
  eapply contract_both; eauto.
Qed.
Lemma heap_drivers_AC A B M itmax insp sz mx : (forall a b, add a b = add b a) -> (forall a b c, add a (add b c) = add (add a b) c) ->
  compatible A B M -> sorted_rows B -> sorted_rows M -> 1 <= rows A -> (0 < sz)%N ->
  cols B <= itmax -> insp_ok insp (nnz M) ->
  (forall i, i < rows A -> length (row_cols A i) <= mx) -> ((N.of_nat mx + 1) * sz + 8 < 2 ^ 64)%N ->
  exists C, product_matrix A B C (fun i l => l = spec_row mul add A B M i) /\
    yields1p (heapAlg mul add itmax insp sz) A B M C /\ yields2p (heapAlg mul add itmax insp sz) A B M C.
Proof.
  intros Hc Ha HC HB HM Hr Hs Hit Hins Hm Hb.
  destruct (heapAlg_ok mul add A B M HC itmax insp sz mx) as (rspec & Hok & HR); try assumption.
  eapply contract_both; eauto. intros i Hi. destruct (HR i Hi) as [H1 H2]. apply heap_row_unique; assumption.
Qed.
Lemma heapC_drivers A B M itmax sz mx : compatible A B M -> sorted_rows B -> sorted_rows M -> 1 <= rows A -> (0 < sz)%N ->
  cols B <= itmax -> (forall i, i < rows A -> touched_cols A B i <> [] -> row_cols M i <> []) ->
  (forall i, i < rows A -> length (row_cols A i) <= mx) -> ((N.of_nat mx + 1) * sz + 8 < 2 ^ 64)%N ->
  exists C, product_matrix A B C (fun i l => StronglySorted lt (fst <$> l) /\ (forall j, j ∈ fst <$> l <-> j ∈ compl_cols A B M i) /\
      forall j v, (j, v) ∈ l -> sum_in_some_order mul add A B i j v) /\
    yields1p (heapAlgC mul add itmax sz) A B M C /\ yields2p (heapAlgC mul add itmax sz) A B M C.
Proof.
  intros HC HB HM Hr Hs Hit Hne Hm Hb.
  destruct (heapAlgC_ok mul add A B M HC itmax sz mx) as (rspec & Hok & HR); try assumption.
  - intros i Hi Hp. apply Hne; [exact Hi|]. intros E. rewrite <- touched_length, E in Hp. contradiction.
  - eapply contract_both; eauto.
Qed.

(** ** Agreement: one matrix for all algorithms *)
Lemma product_unique (A B C C' : csr V) (f : nat -> list (nat * V)) :
  product_matrix A B C (fun i l => l = f i) -> product_matrix A B C' (fun i l => l = f i) -> C = C'.
Proof.
  intros (Hw & Hr & Hc & Hrow) (Hw' & Hr' & Hc' & Hrow'). apply wf_ext; try assumption; try congruence.
  intros i Hi. rewrite Hrow, Hrow' by congruence. reflexivity.
Qed.

Lemma agree A B M : compatible A B M -> sorted_rows B -> sorted_rows M -> 1 <= rows A ->
  exists C, product_matrix A B C (fun i l => l = spec_row mul add A B M i) /\
  (forall two sz, (0 < sz)%N -> ((N.of_nat (cols B) + 1) * (sz + 1) + 8 < 2 ^ 64)%N ->
     yields1p (msaAlg mul add two sz) A B M C /\ yields2p (msaAlg mul add two sz) A B M C) /\
  (forall sz mx, (0 < sz)%N -> (forall i, i < rows A -> length (row_cols M i) <= mx) -> ((N.of_nat mx + 1) * sz + 8 < 2 ^ 64)%N ->
     yields1p (mcaAlg mul add sz) A B M C /\ yields2p (mcaAlg mul add sz) A B M C) /\
  (forall w sK sN mx, (0 < sK)%N -> (0 < sN)%N -> (forall i, i < rows A -> length (row_cols M i) <= mx) -> fits w mx ->
     ((8 * (N.of_nat mx + 2) + 1) * N.max sK sN < 2 ^ 64)%N -> (N.lcm sK sN + 8 < 2 ^ 64)%N ->
     yields1p (hashAlg mul add w sK sN) A B M C /\ yields2p (hashAlg mul add w sK sN) A B M C) /\
  ((forall a b, add a b = add b a) -> (forall a b c, add a (add b c) = add (add a b) c) ->
   forall itmax insp sz mx, (0 < sz)%N -> cols B <= itmax -> insp_ok insp (nnz M) ->
     (forall i, i < rows A -> length (row_cols A i) <= mx) -> ((N.of_nat mx + 1) * sz + 8 < 2 ^ 64)%N ->
     yields1p (heapAlg mul add itmax insp sz) A B M C /\ yields2p (heapAlg mul add itmax insp sz) A B M C).
Proof.
  intros HC HB HM Hr.
  assert (Hd : distinct_rows M) by (intros i Hi; apply SSorted_NoDup, HM, Hi).
  set (C := assemble (spec_row mul add A B M) (rows A) (cols B)).
  assert (HP : product_matrix A B C (fun i l => l = spec_row mul add A B M i)).
  { split; [apply assemble_wf; intros i c v Hi Hin; eapply plain_cols; eauto|]. split; [reflexivity|]. split; [reflexivity|].
    intros i Hi. apply assemble_row, Hi. }
  exists C. split; [exact HP|]. split; [|split; [|split]].
  - intros two sz Hs Hb. destruct (msa_drivers A B M two sz) as (C' & HP' & H); try assumption.
    rewrite (product_unique A B C C' _ HP HP'). exact H.
  - intros sz mx Hs Hm Hb. destruct (mca_drivers A B M sz mx) as (C' & HP' & H); try assumption.
    rewrite (product_unique A B C C' _ HP HP'). exact H.
  - intros w sK sN mx HK HN Hm Hf Hb Hl. destruct (hash_drivers A B M w sK sN mx) as (C' & HP' & H); try assumption.
    rewrite (product_unique A B C C' _ HP HP'). exact H.
  - intros Hc Ha itmax insp sz mx Hs Hit Hins Hm Hb. destruct (heap_drivers_AC A B M itmax insp sz mx) as (C' & HP' & H); try assumption.
    rewrite (product_unique A B C C' _ HP HP'). exact H.
Qed.

(** ** Partition of the unmasked product *)
Lemma partition A B M (C Cc : csr V) i j v : i < rows A -> 
  product_matrix A B C (fun i l => l = spec_row mul add A B M i) ->
  product_matrix A B Cc (fun i l => is_compl_row mul add A B M i l) ->
  (prod_entry mul add A B i j = Some v <-> (j, v) ∈ row_entries C i \/ (j, v) ∈ row_entries Cc i) /\
  ~ (j ∈ row_cols C i /\ j ∈ row_cols Cc i).
Proof.
  intros Hi (_ & _ & _ & HC) (_ & _ & _ & HCc). specialize (HC i Hi). specialize (HCc i Hi). cbv beta in HC, HCc.
  destruct HCc as [Hnd HCc].
  assert (Hin : (j, v) ∈ row_entries C i <-> j ∈ row_cols M i /\ prod_entry mul add A B i j = Some v).
  { rewrite HC, <- mrow_spec, mrow_elem. unfold prod_entry. rewrite colval_entry. reflexivity. }
  rewrite Hin, HCc. split.
  - destruct (decide (j ∈ row_cols M i)); tauto.
  - intros [H1 H2]. unfold row_cols in H1 at 1, H2 at 1. rewrite HC, spec_row_keys in H1. apply elem_of_list_filter in H1 as [_ H1].
    apply elem_of_list_fmap in H2 as ([j' v'] & -> & H2). apply HCc in H2 as [H2 _]. apply H2. exact H1.
Qed.
End St.

(** ** The pattern does not depend on the values *)
Definition same_pattern {V W} (X : csr V) (Y : csr W) : Prop :=
  rows X = rows Y /\ cols X = cols Y /\ rowptr X = rowptr Y /\ colids X = colids Y.

Section Pattern.
Context {V W : Type}.
Lemma pattern_cols (X : csr V) (Y : csr W) i : wf X -> wf Y -> same_pattern X Y -> row_cols X i = row_cols Y i.
Proof.
  intros HX HY (Hr & Hc & Hp & Hi). unfold row_cols, row_entries. rewrite Hp. destruct (rowptr Y !! i) as [b|]; [|reflexivity].
  destruct (rowptr Y !! (i + 1)) as [e|]; [|reflexivity]. rewrite !fmap_take, !fmap_drop.
  rewrite !fst_zip; [rewrite Hi; reflexivity|rewrite (wf_colids Y HY), (wf_values Y HY); lia|rewrite (wf_colids X HX), (wf_values X HX); lia].
Qed.
Lemma pattern_touched (A B : csr V) (A' B' : csr W) i : wf A -> wf A' -> wf B -> wf B' -> same_pattern A A' -> same_pattern B B' ->
  touched_cols A B i = touched_cols A' B' i.
Proof.
  intros HA HA' HB HB' HpA HpB. pose proof (pattern_cols A A' i HA HA' HpA) as Hc. unfold row_cols in Hc. unfold touched_cols.
  assert (HE : forall (l : list (nat * V)) (l' : list (nat * W)), fst <$> l = fst <$> l' ->
    mjoin ((fun ka => row_cols B (fst ka)) <$> l) = mjoin ((fun ka => row_cols B' (fst ka)) <$> l')); [|apply HE, Hc].
  induction l as [|[k a] l IH]; intros [|[k' a'] l'] E; try discriminate; [reflexivity|].
  rewrite !fmap_cons in E. cbn [fst] in E. injection E as -> E. rewrite !fmap_cons, !mjoin_cons. cbn [fst].
  rewrite (pattern_cols B B' k' HB HB' HpB), (IH l' E). reflexivity.
Qed.
Lemma pattern_spec mul add mul' add' (A B M : csr V) (A' B' M' : csr W) i :
  compatible A B M -> compatible A' B' M' -> same_pattern A A' -> same_pattern B B' -> same_pattern M M' ->
  fst <$> spec_row mul add A B M i = fst <$> spec_row mul' add' A' B' M' i.
Proof.
  intros HC HC' HA HB HM. rewrite !spec_row_keys.
  rewrite (pattern_cols M M' i) by (apply HC || apply HC' || exact HM).
  rewrite (pattern_touched A B A' B' i); [reflexivity|apply HC|apply HC'|apply HC|apply HC'|exact HA|exact HB].
Qed.
Lemma pattern_compl (A B M : csr V) (A' B' M' : csr W) i :
  compatible A B M -> compatible A' B' M' -> same_pattern A A' -> same_pattern B B' -> same_pattern M M' ->
  compl_cols A B M i = compl_cols A' B' M' i.
Proof.
  intros HC HC' HA HB HM. unfold compl_cols.
  rewrite (pattern_cols M M' i) by (apply HC || apply HC' || exact HM).
  rewrite (pattern_touched A B A' B' i); [reflexivity|apply HC|apply HC'|apply HC|apply HC'|exact HA|exact HB].
Qed.
(** Two matrices with the same shape and the same columns in every row have the same pattern. *)
Lemma pattern_of_rows (C : csr V) (C' : csr W) : wf C -> wf C' -> rows C = rows C' -> cols C = cols C' ->
  (forall i, i < rows C -> row_cols C i = row_cols C' i) -> same_pattern C C' /\ nnz C = nnz C'.
Proof.
  intros Hw Hw' Hr Hc H.
  destruct (assemble_pattern (row_entries C) (row_entries C') (rows C) (cols C) H) as (H1 & H2 & H3).
  rewrite <- (wf_assemble C Hw) in H1, H2, H3. rewrite Hr, Hc in H1, H2, H3. rewrite <- (wf_assemble C' Hw') in H1, H2, H3.
  repeat split; assumption.
Qed.
End Pattern.

(** ** The outcome is unique, and only the output object changes *)
Section Unique.
Context {V : Type}.
Lemma region_unique {L Val E S : Type} `{Countable L} (phs : list (phase L Val E S)) e m ss e1 m1 ss1 e2 m2 ss2 :
  region_always phs e m ss e1 m1 ss1 -> region_always phs e m ss e2 m2 ss2 -> e1 = e2 /\ m1 = m2 /\ ss1 = ss2.
Proof.
  intros H1 H2. apply region_always_exists in H2. apply (region_always_outcome _ _ _ _ _ _ _ _ H1) in H2. inversion H2. auto.
Qed.
Lemma parfor_unique row n k d1 d2 t1 t2 : parfor_always row n (replicate k None) (Some <$> d1) t1 -> parfor_always row n (replicate k None) (Some <$> d2) t2 ->
  d1 = d2 /\ t1 = t2.
Proof.
  intros H1 H2. assert (Hp : mjoin [seq 0 n] ≡ₚ seq 0 n) by (cbn; rewrite app_nil_r; reflexivity).
  destruct (H1 _ Hp) as (m1 & p1 & A1 & L1 & C1 & T1). destruct (H2 _ Hp) as (m2 & p2 & A2 & L2 & C2 & T2).
  destruct (always_unique _ _ _ _ _ A1 A2) as [<- <-]. split.
  - apply (inj (fmap Some)). apply list_eq. intros i. destruct (Nat.lt_ge_cases i (length (replicate k (@None nat)))) as [Hi|Hi].
    + rewrite <- C1, <- C2 by exact Hi. reflexivity.
    + rewrite !lookup_ge_None_2; [reflexivity|rewrite L2; exact Hi|rewrite L1; exact Hi].
  - rewrite <- (T1 p1 ltac:(reflexivity)). apply T2. reflexivity.
Qed.
Lemma excScan_unique (src : list nat) n nt k d1 d2 :
  excScan_always 0 Nat.add src n nt (replicate k None) (Some <$> d1) -> excScan_always 0 Nat.add src n nt (replicate k None) (Some <$> d2) -> d1 = d2.
Proof.
  unfold excScan_always. destruct (excIsSeq n nt).
  - intros H1 H2. rewrite H1 in H2. injection H2 as H2. apply (inj (fmap Some)) in H2. exact H2.
  - intros (m1 & R1 & L1 & S1) (m2 & R2 & L2 & S2). destruct (region_unique _ _ _ _ _ _ _ _ _ _ R1 R2) as (_ & <- & _).
    apply (inj (fmap Some)). apply list_eq. intros i. destruct (Nat.lt_ge_cases i (length (replicate k (@None nat)))) as [Hi|Hi].
    + rewrite <- S1, <- S2 by exact Hi. reflexivity.
    + rewrite !lookup_ge_None_2; [reflexivity|rewrite L2; exact Hi|rewrite L1; exact Hi].
Qed.
Lemma prepare_unique compl (A B M : csr V) nt f1 c1 t1 f2 c2 t2 :
  prepare_always compl A B M nt f1 c1 t1 -> prepare_always compl A B M nt f2 c2 t2 -> f1 = f2 /\ c1 = c2 /\ t1 = t2.
Proof.
  intros [H1 S1] [H2 S2]. assert (E : f1 = f2 /\ t1 = t2) by (destruct compl; eapply parfor_unique; eauto).
  destruct E as [<- <-]. split; [reflexivity|]. split; [|reflexivity]. eapply excScan_unique; eauto.
Qed.

Lemma driver1p_unique (alg : rowalg V) iA iB iM iC nt sc s s1 s2 :
  driver1p_always alg iA iB iM iC nt sc s s1 -> driver1p_always alg iA iB iM iC nt sc s s2 -> s1 = s2.
Proof.
  intros (A & B & M & HA & HB & HM & _ & f & c & t & Hp & e & m & ss & HR & C & HC & ->)
         (A' & B' & M' & HA' & HB' & HM' & _ & f' & c' & t' & Hp' & e' & m' & ss' & HR' & C' & HC' & ->).
  rewrite HA in HA'. rewrite HB in HB'. rewrite HM in HM'. injection HA' as <-. injection HB' as <-. injection HM' as <-.
  destruct (prepare_unique _ _ _ _ _ _ _ _ _ _ _ Hp Hp') as (<- & <- & <-).
  destruct (region_unique _ _ _ _ _ _ _ _ _ _ HR HR') as (<- & <- & <-). rewrite HC in HC'. injection HC' as <-. reflexivity.
Qed.
Lemma driver2p_unique (alg : rowalg V) iA iB iM iC iR nt sc s s1 s2 :
  driver2p_always alg iA iB iM iC iR nt sc s s1 -> driver2p_always alg iA iB iM iC iR nt sc s s2 -> s1 = s2.
Proof.
  intros (A & B & M & HA & HB & HM & _ & f & c & t & Hp & e & m & ss & HR & C & HC & ->)
         (A' & B' & M' & HA' & HB' & HM' & _ & f' & c' & t' & Hp' & e' & m' & ss' & HR' & C' & HC' & ->).
  rewrite HA in HA'. rewrite HB in HB'. rewrite HM in HM'. injection HA' as <-. injection HB' as <-. injection HM' as <-.
  destruct (prepare_unique _ _ _ _ _ _ _ _ _ _ _ Hp Hp') as (<- & <- & <-).
  destruct (region_unique _ _ _ _ _ _ _ _ _ _ HR HR') as (<- & <- & <-). rewrite HC in HC'. injection HC' as <-. reflexivity.
Qed.

Lemma initC_others (iA iB iC nt : nat) (e : gmap nat (obj V)) m e' m' j : initC iA iB iC nt e m = Ok (e', m') -> j <> iC -> e' !! j = e !! j.
Proof.
  unfold initC. intros H Hj. destruct (deref e iA); [|discriminate]. cbn [bind] in H. destruct (colsOf e iB); [|discriminate]. cbn [bind] in H.
  destruct (for_ _ _ _ _); [|discriminate]. cbn [bind] in H. injection H as <- _. apply lookup_insert_ne. congruence.
Qed.
Lemma driver1p_others (alg : rowalg V) iA iB iM iC nt sc s s' j :
  driver1p_always alg iA iB iM iC nt sc s s' -> j <> iC -> s' !! j = s !! j.
Proof.
  intros (A & B & M & HA & HB & HM & _ & f & c & t & Hp & e & m & ss & HR & C & HC & ->) Hj.
  rewrite lookup_insert_ne by congruence. unfold region1p in HR.
  inversion HR as [|? ? ? ? ? ? ? ? ? ? _ HR2|]; subst. inversion HR2 as [| |? ? ? ? ? ? ? ? ? ? ? Hi HR3]; subst.
  inversion HR3 as [|? ? ? ? ? ? ? ? ? ? _ HR4|]; subst. inversion HR4; subst. eapply initC_others; eauto.
Qed.
Lemma driver2p_others (alg : rowalg V) iA iB iM iC iR nt sc s s' j :
  driver2p_always alg iA iB iM iC iR nt sc s s' -> j <> iC -> j <> iR -> s' !! j = s !! j.
Proof.
  intros (A & B & M & HA & HB & HM & _ & f & c & t & Hp & e & m & ss & HR & C & HC & ->) Hj Hj'.
  rewrite lookup_delete_ne, lookup_insert_ne by congruence. unfold region2p in HR.
  inversion HR as [|? ? ? ? ? ? ? ? ? ? _ HR2|]; subst. inversion HR2 as [| |? ? ? ? ? ? ? ? ? ? ? Hi HR3]; subst.
  inversion HR3 as [|? ? ? ? ? ? ? ? ? ? _ HR4|]; subst. inversion HR4; subst.
  rewrite (initC_others _ _ _ _ _ _ _ _ j Hi Hj'). apply lookup_insert_ne. congruence.
Qed.
End Unique.
