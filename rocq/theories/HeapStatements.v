(** The heap row kernels against the specification. *)
From stdpp Require Import sorting.
From Verif Require Import Base Spec KernelBase BaseProofs ComplProofs MsaProofs McaProofs HeapModel HeapPrimProofs HeapProofs HeapRowProofs.

(** *** Sums that do not depend on the order *)
Section AC.
Context {V : Type} (add : V -> V -> V).
Hypotheses (Hcomm : forall a b, add a b = add b a) (Hassoc : forall a b c, add a (add b c) = add (add a b) c).

Definition oadd (x y : option V) : option V :=
  match x, y with Some a, Some b => Some (add a b) | Some a, None => Some a | None, _ => y end.
Lemma oadd_comm x y : oadd x y = oadd y x.
Proof. destruct x, y; simpl; try reflexivity. rewrite Hcomm. reflexivity. Qed.
Lemma oadd_assoc x y z : oadd x (oadd y z) = oadd (oadd x y) z.
Proof. destruct x, y, z; simpl; try reflexivity. rewrite Hassoc. reflexivity. Qed.
Definition osum (l : list V) : option V := foldr (fun x s => oadd (Some x) s) None l.
Lemma osum_perm l1 l2 : l1 ≡ₚ l2 -> osum l1 = osum l2.
Proof.
  induction 1 as [|x l1 l2 H IH|x y l|l1 l2 l3 H1 IH1 H2 IH2]; cbn [osum foldr]; [reflexivity| | |congruence].
  - fold (osum l1) (osum l2). rewrite IH. reflexivity.
  - rewrite !oadd_assoc. f_equal. apply oadd_comm.
Qed.
Lemma fold_osum xs : forall x, Some (fold_left add xs x) = osum (x :: xs).
Proof.
  induction xs as [|y xs IH]; intros x; [reflexivity|].
  cbn [fold_left]. rewrite IH. cbn [osum foldr]. rewrite oadd_assoc. reflexivity.
Qed.
Lemma foldl_osum xs : forall x, Some (fold_left (fun s y => add y s) xs x) = osum (x :: xs).
Proof.
  induction xs as [|y xs IH]; intros x; [reflexivity|].
  cbn [fold_left]. rewrite IH. cbn [osum foldr]. rewrite oadd_assoc. cbn [oadd]. rewrite Hcomm. reflexivity.
Qed.

Lemma some_order_unique mul (A B : csr V) i j v : sum_in_some_order mul add A B i j v ->
  prod_entry mul add A B i j = Some v.
Proof.
  intros (ord & Hp & Hs). destruct ord as [|x xs]; [contradiction|]. subst v. unfold prod_entry, entry.
  rewrite foldl_osum, (osum_perm _ _ Hp).
  destruct (products mul (row_entries A i) (row_entries B) j) as [|y ys].
  - symmetry in Hp. apply Permutation_nil in Hp. discriminate.
  - cbn [sum1]. apply fold_osum.
Qed.
End AC.

Section Final.
Context {V : Type} (mul add : V -> V -> V).
Local Notation prod := (nat * V * V)%type.
Local Notation pcols := (fmap (fun p : prod => fst (fst p))).
Local Notation pm := (fun p : prod => mul (snd (fst p)) (snd p)).

Lemma spec_row_keys (A B M : csr V) row :
  fst <$> spec_row mul add A B M row = filter (fun c => c ∈ touched_cols A B row) (row_cols M row).
Proof.
  rewrite <- mrow_spec, <- row_prods_cols.
  induction (row_cols M row) as [|c mask IH]; [reflexivity|].
  rewrite mrow_cons, filter_cons.
  destruct (colval mul add (row_prods A B row) c) as [v|] eqn:Hcv.
  - rewrite decide_True; [rewrite fmap_cons; f_equal; exact IH|].
    destruct (decide (c ∈ pcols (row_prods A B row))) as [H|H]; [exact H|].
    apply (colval_None mul add) in H. congruence.
  - rewrite decide_False; [exact IH|]. apply (colval_None mul add). exact Hcv.
Qed.

Lemma row_prods_length_le (A B : csr V) row : wf A -> wf B -> cols A = rows B -> row < rows A ->
  length (row_prods A B row) <= nnz A * nnz B.
Proof.
  intros HA HB Hc Hr. unfold row_prods.
  destruct (row_bounds_wf A row HA Hr) as (b & e & Hb & He & Hle & Hn & _).
  pose proof (row_entries_length A row b e HA Hr Hb He) as Hlen.
  assert (length (row_entries A row) <= nnz A) as HlA by lia. clear -HlA HA HB Hc Hr.
  assert (Forall (fun ka => fst ka < rows B) (row_entries A row)) as Hrange.
  { apply Forall_forall. intros [k a] Hin. cbn. rewrite <- Hc. eapply row_entries_range; eauto. }
  assert (length (mjoin ((fun ka => (fun cb => (fst cb, snd ka, snd cb)) <$> row_entries B (fst ka)) <$> row_entries A row)) <=
    length (row_entries A row) * nnz B); [|nia].
  clear HlA. induction (row_entries A row) as [|[k a] l IH]; [simpl; lia|].
  apply Forall_cons in Hrange as [Hk Hl]. rewrite fmap_cons, mjoin_cons, app_length, fmap_length.
  specialize (IH Hl). cbn [fst] in *.
  destruct (row_bounds_wf B k HB Hk) as (b & e & Hb & He & Hle & Hn & _).
  rewrite (row_entries_length B k b e HB Hk Hb He). simpl length. lia.
Qed.

Section Row.
Variables (itmax : nat) (insp : N) (A B M : csr V) (row mb me : nat).
Hypotheses (Hco : compatible A B M) (Hrow : row < rows A) (HsB : sorted_rows B).
Hypotheses (HsM : StronglySorted lt (row_cols M row)) (Hmax : cols B <= itmax) (Hok : insp_ok insp (nnz M)).
Hypotheses (Hmb : rowptr M !! row = Some mb) (Hme : rowptr M !! (row + 1) = Some me) (Hne : mb < me).
Notation mask := (row_cols M row).
Notation all := (row_prods A B row).

Definition psel (selb : nat -> bool) (ps : list prod) : list prod := filter (fun p : prod => selb (fst (fst p)) = true) ps.
Definition Jlog (selb : nat -> bool) (cs : list prod) (log : list hentry) : Prop :=
  Forall2 (is_root A B) log (psel selb cs) /\ StronglySorted le (pcols (psel selb cs)).

Lemma psel_snoc selb cs p : psel selb (cs ++ [p]) = psel selb cs ++ (if selb (fst (fst p)) then [p] else []).
Proof. unfold psel. rewrite filter_app, filter_cons, filter_nil. destruct (selb (fst (fst p))); reflexivity. Qed.

Lemma SSle_snoc (l : list nat) x : StronglySorted le l -> (forall y, y ∈ l -> y <= x) -> StronglySorted le (l ++ [x]).
Proof.
  induction 1 as [|a l Hs IH Hf]; intros Hle; [repeat constructor|]. simpl. constructor.
  - apply IH. intros y Hy. apply Hle. right. exact Hy.
  - apply List.Forall_app. split; [exact Hf|]. constructor; [|constructor]. apply Hle. left.
Qed.

Lemma Jlog_act selb cs a b e s : values A !! erunr e = Some a -> values B !! eloc e = Some b -> ek e < cols B ->
  selb (ek e) = true -> Jlog selb cs s -> (forall p, p ∈ cs -> fst (fst p) <= ek e) ->
  (forall p, p ∈ cs ++ [(ek e, a, b)] -> p ∈ all) ->
  exists s', logact e s = Ok s' /\ Jlog selb (cs ++ [(ek e, a, b)]) s'.
Proof.
  intros Ha Hb _ Hsel [H1 H2] Hle _. eexists. split; [reflexivity|]. split; rewrite psel_snoc; cbn [fst]; rewrite Hsel.
  - apply Forall2_app; [exact H1|]. constructor; [|constructor]. repeat split; assumption.
  - rewrite fmap_app. cbn [fmap list_fmap fst]. apply SSle_snoc; [exact H2|].
    intros y Hy. apply elem_of_list_fmap in Hy as (p & -> & Hp). apply Hle. unfold psel in Hp.
    apply elem_of_list_filter in Hp. tauto.
Qed.

Lemma Jlog_skip selb cs c a b s : ~ selb c = true -> Jlog selb cs s -> Jlog selb (cs ++ [(c, a, b)]) s.
Proof.
  intros Hsel [H1 H2]. split; rewrite psel_snoc; cbn [fst]; destruct (selb c); try (exfalso; auto; fail);
    rewrite app_nil_r; assumption.
Qed.

Lemma Jlog_nil selb : Jlog selb [] [].
Proof. split; constructor. Qed.

Definition log_facts (selb : nat -> bool) (log : list hentry) (ps : list prod) : Prop :=
  Forall2 (is_root A B) log ps /\ StronglySorted le (pcols ps) /\ ps ≡ₚ psel selb all.

(** A finished heap: the contents are gone, the capacity is kept. *)
Definition emptied (h h' : heap) : Prop :=
  hp h' = [] /\ hcap h' = hcap h /\ hmax h <= hmax h' <= Nat.max (hmax h) (hcap h).

Lemma heap_ext h1 h2 : hp h1 = hp h2 -> h1 = recap (hcap h1) (hmax h1) h2.
Proof. destruct h1, h2; cbn. intros ->. reflexivity. Qed.

Lemma fuel_ok l : l ≡ₚ all -> length l < heapFuel A B.
Proof.
  intros H. rewrite H. unfold heapFuel. destruct Hco.
  pose proof (row_prods_length_le A B row co_A co_B co_inner Hrow). lia.
Qed.

Lemma plain_log : exists log ps, log_facts (fun c => bool_decide (c ∈ mask)) log ps /\
  forall h, hp h = [] -> length (row_entries A row) <= hcap h ->
  exists h1 h', initHeap insp A B M row mb me h = Ok h1 /\
    heapLoop logact (heapFuel A B) insp A B M me mb h1 [] = Ok (h', log) /\ emptied h h'.
Proof.
  set (selb := fun c => bool_decide (c ∈ mask)).
  set (h0 := mkHeap [] (length (row_entries A row)) 0).
  pose proof (initHeap_spec insp A B M row mb me Hco Hrow HsB HsM Hok Hmb Hme Hne) as Hinit.
  destruct (Hinit h0 eq_refl ltac:(reflexivity)) as (h1 & sk & Hi & Hheap & Hval & Hc & Hm & Hperm & Hsk & _).
  assert (forall h h1 sk, is_heap (hp h1) -> Forall (valid A B) (hp h1) -> sk ++ rems A B (hp h1) ≡ₚ all ->
    Forall (fun p : prod => fst (fst p) ∉ mask) sk -> hcap h1 = hcap h -> hmax h <= hmax h1 <= Nat.max (hmax h) (hcap h) ->
    exists h' log cs sk, heapLoop logact (heapFuel A B) insp A B M me mb h1 [] = Ok (h', log) /\ emptied h h' /\
      Jlog selb cs log /\ cs ++ sk ≡ₚ all /\ Forall (fun p : prod => fst (fst p) ∉ mask) sk) as Hrun.
  { clear -mul add Hco Hrow HsB HsM Hmax Hok Hmb Hme Hne. intros h h1 sk Hheap Hval Hperm Hsk Hc Hm.
    destruct (heapLoop_spec insp A B M row mb me Hco Hrow HsB HsM Hok Hmb Hme Hne logact
      (fun c => selb c = true) (Jlog selb)) with (fuel := heapFuel A B) (h := h1) (cs := @nil prod) (sk := sk) (s := @nil hentry) (p := 0)
      as (h' & log & cs' & sk' & Hl & Hn & Hc' & Hm' & HJ & Hp' & Hsk').
    - intros. eapply Jlog_act; eauto.
    - intros. apply Jlog_skip; auto.
    - intros c. unfold selb. rewrite bool_decide_eq_true. reflexivity.
    - assert (length (sk ++ rems A B (hp h1)) < heapFuel A B); [apply fuel_ok, Hperm|].
      rewrite app_length in H. lia.
    - lia.
    - split; auto. { intros p e Hp. inversion Hp. } apply Jlog_nil.
    - intros; lia.
    - rewrite Nat.add_0_r in Hl. exists h', log, cs', sk'. split; [exact Hl|].
      split; [split; [exact Hn|lia]|]. auto. }
  destruct (Hrun h0 h1 sk Hheap Hval Hperm Hsk Hc Hm) as (h' & log & cs & sk' & Hl & Hem & [HJ1 HJ2] & Hp & Hsk').
  exists log, (psel selb cs). split.
  - split; [exact HJ1|]. split; [exact HJ2|]. unfold psel. rewrite <- Hp, filter_app.
    replace (filter _ sk') with (@nil prod); [rewrite app_nil_r; reflexivity|].
    clear -Hsk'. induction Hsk' as [|p l H Hl IH]; [reflexivity|].
    rewrite filter_cons, decide_False; [exact IH|]. unfold selb. rewrite bool_decide_eq_true. exact H.
  - intros h Hh Hcap.
    destruct (Hinit h Hh Hcap) as (h2 & sk2 & Hi2 & Hheap2 & Hval2 & Hc2 & Hm2 & Hperm2 & Hsk2 & _).
    destruct (Hrun h h2 sk2 Hheap2 Hval2 Hperm2 Hsk2 Hc2 Hm2) as (h2' & log2 & cs2 & sk2' & Hl2 & Hem2 & _).
    exists h2, h2'. split; [exact Hi2|]. split; [|exact Hem2].
    assert (hp h2 = hp h1) as Hh2. { eapply initHeap_hp; [|exact Hi2|exact Hi]. rewrite Hh. reflexivity. }
    rewrite (heap_ext h2 h1 Hh2), heapLoop_recap, Hl in Hl2. cbn in Hl2. inversion Hl2; subst.
    rewrite (heap_ext h2 h1 Hh2), heapLoop_recap, Hl. reflexivity.
Qed.

Lemma compl_log : exists log1 log2 ps, log_facts (fun c => bool_decide (c ∉ mask)) (log1 ++ log2) ps /\
  forall h, hp h = [] -> length (row_entries A row) <= hcap h ->
  exists h1 h2 h', initHeap 0 A B M row mb me h = Ok h1 /\
    heapLoopC logact (heapFuel A B) A B M me mb h1 [] = Ok (h2, log1) /\
    heapTail logact (heapFuel A B) A B M h2 log1 = Ok (h', log1 ++ log2) /\ emptied h h'.
Proof.
  set (selb := fun c => bool_decide (c ∉ mask)).
  set (h0 := mkHeap [] (length (row_entries A row)) 0).
  assert (Hok0 : insp_ok 0 (nnz M)) by (left; lia).
  pose proof (initHeap_spec 0 A B M row mb me Hco Hrow HsB HsM Hok0 Hmb Hme Hne) as Hinit.
  destruct (Hinit h0 eq_refl ltac:(reflexivity)) as (h1 & sk & Hi & Hheap & Hval & Hc & Hm & Hperm & _ & Hsk).
  rewrite (Hsk eq_refl) in Hperm.
  assert (forall h h1, is_heap (hp h1) -> Forall (valid A B) (hp h1) -> rems A B (hp h1) ≡ₚ all ->
    hcap h1 = hcap h -> hmax h <= hmax h1 <= Nat.max (hmax h) (hcap h) ->
    exists h2 h' log1 log cs, heapLoopC logact (heapFuel A B) A B M me mb h1 [] = Ok (h2, log1) /\
      heapTail logact (heapFuel A B) A B M h2 log1 = Ok (h', log) /\ emptied h h' /\
      Jlog selb cs log /\ cs ≡ₚ all) as Hrun.
  { clear -mul add Hco Hrow HsB HsM Hmax Hok Hmb Hme Hne. intros h h1 Hheap Hval Hperm Hc Hm.
    assert (Hact : forall (cs : list prod) a b e s, values A !! erunr e = Some a -> values B !! eloc e = Some b -> ek e < cols B ->
      (fun c => selb c = true) (ek e) -> Jlog selb cs s -> (forall p, p ∈ cs -> fst (fst p) <= ek e) ->
      (forall p, p ∈ cs ++ [(ek e, a, b)] -> p ∈ all) ->
      exists s', logact e s = Ok s' /\ Jlog selb (cs ++ [(ek e, a, b)]) s') by (intros; eapply Jlog_act; eauto).
    assert (Hskip : forall (cs : list prod) c a b s, ~ (fun c => selb c = true) c -> Jlog selb cs s -> Jlog selb (cs ++ [(c, a, b)]) s)
      by (intros; apply Jlog_skip; auto).
    assert (Hsel : forall c, (fun c => selb c = true) c <-> c ∉ mask).
    { intros c. unfold selb. rewrite bool_decide_eq_true. reflexivity. }
    destruct (heapLoopC_spec A B M row mb me Hco Hrow HsB HsM Hmb Hme Hne logact
      (fun c => selb c = true) (Jlog selb) Hact Hskip Hsel) with (fuel := heapFuel A B) (h := h1) (cs := @nil prod) (s := @nil hentry) (p := 0)
      as (h2 & log1 & cs1 & Hl & Hc1 & Hm1 & Hinv & Hlow).
    - apply fuel_ok, Hperm.
    - lia.
    - split; auto. { intros p e Hp. inversion Hp. } apply Jlog_nil.
    - intros; lia.
    - rewrite Nat.add_0_r in Hl.
      destruct (heapTail_spec A B M row mb me Hco Hrow HsB HsM Hmb Hme Hne logact
        (fun c => selb c = true) (Jlog selb) Hact Hskip Hsel (heapFuel A B) h2 cs1 log1) as (h' & log & cs & Ht & Hn & Hc2 & Hm2 & HJ & Hp).
      + pose proof (li_perm _ _ _ _ _ _ _ _ _ Hinv) as Hp1. pose proof (fuel_ok _ Hp1) as Hf.
        rewrite !app_length in Hf. lia.
      + exact Hinv.
      + exact Hlow.
      + exists h2, h', log1, log, cs. split; [exact Hl|]. split; [exact Ht|].
        split; [split; [exact Hn|lia]|]. auto. }
  destruct (Hrun h0 h1 Hheap Hval Hperm Hc Hm) as (h2 & h' & log1 & log & cs & Hl & Ht & Hem & [HJ1 HJ2] & Hp).
  destruct (heapTail_log logact _ _ _ _ _ _ _ _ Ht) as (log2 & -> & _).
  exists log1, log2, (psel selb cs). split.
  - split; [exact HJ1|]. split; [exact HJ2|]. unfold psel. rewrite Hp. reflexivity.
  - intros h Hh Hcap.
    destruct (Hinit h Hh Hcap) as (k1 & sk2 & Hi2 & Hheap2 & Hval2 & Hc2 & Hm2 & Hperm2 & _ & Hsk2).
    rewrite (Hsk2 eq_refl) in Hperm2.
    destruct (Hrun h k1 Hheap2 Hval2 Hperm2 Hc2 Hm2) as (k2 & k' & log1' & log' & cs2 & Hl2 & Ht2 & Hem2 & _).
    assert (hp k1 = hp h1) as Hh2. { eapply initHeap_hp; [|exact Hi2|exact Hi]. rewrite Hh. reflexivity. }
    exists k1, k2, k'. split; [exact Hi2|].
    pose proof (heap_ext k1 h1 Hh2) as Hk1. 
    revert Hk1. generalize (hcap k1) (hmax k1). intros cc mm Hk1.
    rewrite Hk1, heapLoopC_recap, Hl in Hl2. cbn in Hl2.
    assert (log1' = log1 /\ k2 = recap cc mm h2) as [-> ->] by (inversion Hl2; auto).
    rewrite heapTail_recap, Ht in Ht2. cbn in Ht2. injection Ht2 as <- <-.
    split; [rewrite Hk1, heapLoopC_recap, Hl; reflexivity|].
    split; [rewrite heapTail_recap, Ht; reflexivity|exact Hem2].
Qed.

(** What the grouped products amount to. *)
Lemma grp_facts selb log ps : log_facts selb log ps ->
  Forall (fun p : prod => fst (fst p) < itmax) ps /\
  StronglySorted lt (first_touch (pcols ps)) /\
  (forall j, j ∈ first_touch (pcols ps) <-> selb j = true /\ j ∈ touched_cols A B row) /\
  (forall j v, (j, v) ∈ grp mul add ps -> sum_in_some_order mul add A B row j v).
Proof.
  clear Hrow HsB HsM Hok Hmb Hme Hne. intros (_ & Hs & Hp). split; [|split; [|split]].
  - rewrite Hp. apply Forall_forall. intros [[c a] b] Hin. unfold psel in Hin.
    apply elem_of_list_filter in Hin as [_ Hin]. apply row_prods_range in Hin; [|apply Hco]. cbn. lia.
  - apply StronglySorted_le_lt; [apply NoDup_first_touch|].
    revert Hs. generalize (pcols ps). clear. induction 1 as [|a l Hs IH Hf]; [constructor|]. cbn [first_touch].
    constructor.
    + clear -IH. induction IH as [|b l' Hs' IH' Hf']; [constructor|]. rewrite filter_cons.
      destruct (decide (b <> a)); [|exact IH']. constructor; [exact IH'|].
      apply List.Forall_forall. intros x Hx. apply elem_of_list_In, elem_of_list_filter in Hx as [_ Hx].
      rewrite List.Forall_forall in Hf'. apply Hf', elem_of_list_In, Hx.
    + apply List.Forall_forall. intros x Hx. apply elem_of_list_In, elem_of_list_filter in Hx as [_ Hx].
      rewrite elem_of_first_touch in Hx. rewrite List.Forall_forall in Hf. apply Hf, elem_of_list_In, Hx.
  - intros j. rewrite elem_of_first_touch, <- row_prods_cols, Hp. unfold psel.
    rewrite !elem_of_list_fmap. split.
    + intros (p & -> & H). apply elem_of_list_filter in H as [H1 H2]. eauto.
    + intros [H (p & -> & Hin)]. exists p. split; [reflexivity|]. apply elem_of_list_filter. auto.
  - intros j v Hin. unfold grp in Hin. apply mrow_elem in Hin as [Hj Hv].
    exists (pm <$> filter (fun p : prod => fst (fst p) = j) ps). split.
    + rewrite products_row_prods, Hp. unfold psel. rewrite list_filter_filter.
      assert (selb j = true) as Hsel.
      { rewrite elem_of_first_touch in Hj.
        apply elem_of_list_fmap in Hj as (p & -> & Hp'). rewrite Hp in Hp'. unfold psel in Hp'.
        apply elem_of_list_filter in Hp'. tauto. }
      match goal with |- ?x ≡ₚ ?y => enough (x = y) as -> by reflexivity end. f_equal. apply list_filter_iff. intros p. split; [tauto|]. intros <-. auto.
    + unfold colval, sum1 in Hv. destruct (pm <$> _); [discriminate|]. inversion Hv. reflexivity.
Qed.

End Row.

Definition mask_nonempty (M : csr V) (row : nat) : Prop := row_cols M row <> [].

Lemma mask_bounds (M : csr V) row : wf M -> row < rows M -> mask_nonempty M row ->
  exists mb me, rowptr M !! row = Some mb /\ rowptr M !! (row + 1) = Some me /\ mb < me /\ row_bounds M row = Ok (mb, me).
Proof.
  intros Hw Hr Hn. unfold mask_nonempty in Hn. destruct (row_bounds_wf M row Hw Hr) as (b & e & Hb & He & Hle & _ & Hrb).
  exists b, e. repeat split; auto. assert (length (row_cols M row) <> 0).
  { destruct (row_cols M row); [exfalso; apply Hn; reflexivity|simpl; lia]. }
  rewrite row_cols_length, (row_entries_length M row b e Hw Hr Hb He) in H. lia.
Qed.

Lemma sorted_lt_unique (l1 l2 : list nat) : StronglySorted lt l1 -> StronglySorted lt l2 ->
  (forall j, j ∈ l1 <-> j ∈ l2) -> l1 = l2.
Proof.
  intros H1 H2 Hel. apply (StronglySorted_unique le).
  - clear -H1. induction H1 as [|a l Hs IH Hf]; constructor; [exact IH|]. eapply List.Forall_impl; [|exact Hf]. intros; lia.
  - clear -H2. induction H2 as [|a l Hs IH Hf]; constructor; [exact IH|]. eapply List.Forall_impl; [|exact Hf]. intros; lia.
  - apply NoDup_Permutation; [apply SSorted_NoDup, H1|apply SSorted_NoDup, H2|exact Hel].
Qed.

Lemma SSlt_filter (P : nat -> Prop) `{!forall x, Decision (P x)} (l : list nat) : StronglySorted lt l -> StronglySorted lt (filter P l).
Proof.
  induction 1 as [|a l Hs IH Hf]; [constructor|]. rewrite filter_cons. destruct (decide (P a)); [|exact IH].
  constructor; [exact IH|]. apply List.Forall_forall. intros x Hx. apply elem_of_list_In, elem_of_list_filter in Hx as [_ Hx].
  rewrite List.Forall_forall in Hf. apply Hf, elem_of_list_In, Hx.
Qed.

(** *** The four kernels *)
Lemma heapNumericRow_correct itmax insp (A B M : csr V) row :
  compatible A B M -> row < rows A -> sorted_rows B -> StronglySorted lt (row_cols M row) ->
  row_cols M row <> [] -> cols B <= itmax -> insp_ok insp (nnz M) ->
  exists l, fst <$> l = fst <$> spec_row mul add A B M row /\
    (forall j v, (j, v) ∈ l -> sum_in_some_order mul add A B row j v) /\
    forall h dn cap, hp h = [] -> length (row_entries A row) <= hcap h ->
      length dn + length (spec_row mul add A B M row) <= cap ->
      exists h', heapNumericRow mul add itmax insp A B M row h (mkOut dn cap) = Ok (h', mkOut (dn ++ l) cap) /\ emptied h h'.
Proof.
  intros Hco Hrow HsB HsM Hne Hmax Hok.
  destruct (mask_bounds M row) as (mb & me & Hmb & Hme & Hlt & Hrb); [apply Hco|rewrite (co_rows _ _ _ Hco); exact Hrow|exact Hne|].
  destruct (plain_log itmax insp A B M row mb me Hco Hrow HsB HsM Hmax Hok Hmb Hme Hlt) as (log & ps & Hf & Hrun).
  destruct (grp_facts itmax A B M row Hco Hmax _ _ _ Hf) as (Hlt' & Hss & Hel & Hsum).
  assert (Hkeys : first_touch (pcols ps) = fst <$> spec_row mul add A B M row).
  { rewrite spec_row_keys. apply sorted_lt_unique; [exact Hss|apply SSlt_filter, HsM|].
    intros j. rewrite Hel, elem_of_list_filter, bool_decide_eq_true. tauto. }
  exists (grp mul add ps). split; [rewrite grp_keys; exact Hkeys|]. split; [exact Hsum|].
  intros h dn cap Hh Hcap Hroom. destruct (Hrun h Hh Hcap) as (h1 & h' & Hi & Hl & Hem).
  exists h'. split; [|exact Hem]. unfold heapNumericRow. rewrite Hrb. cbn [bind].
  rewrite assert_true by (destruct (Nat.eqb_spec mb me); [lia|reflexivity]). cbn [bind]. rewrite Hi. cbn [bind].
  destruct (heapLoop_log (put mul add A B) _ _ _ _ _ _ _ _ _ _ _ Hl) as (l & Hll & Hact). cbn in Hll. subst l.
  destruct Hf as (Hr & Hs & _).
  pose proof (put_run mul add A B itmax dn cap ps log [] Hr Hs Hlt') as Hput. cbn [app] in Hput.
  rewrite (Hact (itmax, mkOut dn cap) (lastcol itmax ps, mkOut (dn ++ grp mul add ps) cap)); [reflexivity|].
  rewrite <- Hput.
  - unfold lastcol, grp. cbn. rewrite app_nil_r. reflexivity.
  - rewrite Hkeys, fmap_length. exact Hroom.
Qed.

Lemma heapSymbolicRow_correct itmax insp (A B M : csr V) row :
  compatible A B M -> row < rows A -> sorted_rows B -> StronglySorted lt (row_cols M row) ->
  row_cols M row <> [] -> cols B <= itmax -> insp_ok insp (nnz M) ->
  forall h, hp h = [] -> length (row_entries A row) <= hcap h ->
  exists h', heapSymbolicRow itmax insp A B M row h = Ok (h', length (spec_row mul add A B M row)) /\ emptied h h'.
Proof.
  intros Hco Hrow HsB HsM Hne Hmax Hok.
  destruct (mask_bounds M row) as (mb & me & Hmb & Hme & Hlt & Hrb); [apply Hco|rewrite (co_rows _ _ _ Hco); exact Hrow|exact Hne|].
  destruct (plain_log itmax insp A B M row mb me Hco Hrow HsB HsM Hmax Hok Hmb Hme Hlt) as (log & ps & Hf & Hrun).
  destruct (grp_facts itmax A B M row Hco Hmax _ _ _ Hf) as (Hlt' & Hss & Hel & Hsum).
  assert (Hkeys : first_touch (pcols ps) = fst <$> spec_row mul add A B M row).
  { rewrite spec_row_keys. apply sorted_lt_unique; [exact Hss|apply SSlt_filter, HsM|].
    intros j. rewrite Hel, elem_of_list_filter, bool_decide_eq_true. tauto. }
  intros h Hh Hcap. destruct (Hrun h Hh Hcap) as (h1 & h' & Hi & Hl & Hem).
  exists h'. split; [|exact Hem]. unfold heapSymbolicRow. rewrite Hrb. cbn [bind].
  rewrite assert_true by (destruct (Nat.eqb_spec mb me); [lia|reflexivity]). cbn [bind]. rewrite Hi. cbn [bind].
  destruct (heapLoop_log bump _ _ _ _ _ _ _ _ _ _ _ Hl) as (l & Hll & Hact). cbn in Hll. subst l.
  destruct Hf as (Hr & Hs & _).
  pose proof (bump_run mul add A B itmax ps log [] Hr Hs Hlt') as Hput. cbn [app] in Hput.
  rewrite (Hact (itmax, 0) (lastcol itmax ps, length (first_touch (pcols ps)))); [|exact Hput].
  cbn. rewrite Hkeys, fmap_length. reflexivity.
Qed.

Lemma compl_keys_length selb itmax (A B M : csr V) row log ps : compatible A B M -> cols B <= itmax ->
  (forall j, selb j = true <-> j ∉ row_cols M row) -> log_facts A B row selb log ps ->
  length (first_touch (pcols ps)) = length (compl_cols A B M row).
Proof.
  intros Hco Hmax Hsel Hf. destruct (grp_facts itmax A B M row Hco Hmax _ _ _ Hf) as (_ & _ & Hel & _).
  apply Permutation_length, NoDup_Permutation; [apply NoDup_first_touch|apply compl_cols_NoDup|].
  intros j. rewrite Hel, compl_cols_elem, Hsel, row_prods_cols. reflexivity.
Qed.

Lemma heapNumericRowC_correct itmax (A B M : csr V) row :
  compatible A B M -> row < rows A -> sorted_rows B -> StronglySorted lt (row_cols M row) ->
  row_cols M row <> [] -> cols B <= itmax ->
  exists l, StronglySorted lt (fst <$> l) /\
    (forall j, j ∈ fst <$> l <-> j ∈ compl_cols A B M row) /\
    (forall j v, (j, v) ∈ l -> sum_in_some_order mul add A B row j v) /\
    forall h dn cap, hp h = [] -> length (row_entries A row) <= hcap h ->
      length dn + length (compl_cols A B M row) <= cap ->
      exists h', heapNumericRowC mul add itmax A B M row h (mkOut dn cap) = Ok (h', mkOut (dn ++ l) cap) /\ emptied h h'.
Proof.
  intros Hco Hrow HsB HsM Hne Hmax.
  destruct (mask_bounds M row) as (mb & me & Hmb & Hme & Hlt & Hrb); [apply Hco|rewrite (co_rows _ _ _ Hco); exact Hrow|exact Hne|].
  assert (Hok : insp_ok 0 (nnz M)) by (left; lia).
  destruct (compl_log itmax A B M row mb me Hco Hrow HsB HsM Hmax Hmb Hme Hlt) as (log1 & log2 & ps & Hf & Hrun).
  destruct (grp_facts itmax A B M row Hco Hmax _ _ _ Hf) as (Hlt' & Hss & Hel & Hsum).
  exists (grp mul add ps). rewrite grp_keys. split; [exact Hss|].
  split. { intros j. rewrite Hel, compl_cols_elem, bool_decide_eq_true, row_prods_cols. reflexivity. }
  split; [exact Hsum|].
  intros h dn cap Hh Hcap Hroom. destruct (Hrun h Hh Hcap) as (h1 & h2 & h' & Hi & Hl & Ht & Hem).
  exists h'. split; [|exact Hem]. unfold heapNumericRowC. rewrite Hrb. cbn [bind].
  rewrite assert_true by (destruct (Nat.eqb_spec mb me); [lia|reflexivity]). cbn [bind]. rewrite Hi. cbn [bind].
  destruct (heapLoopC_log (put mul add A B) _ _ _ _ _ _ _ _ _ _ Hl) as (l & Hll & Hact). cbn in Hll. subst l.
  destruct (heapTail_log (put mul add A B) _ _ _ _ _ _ _ _ Ht) as (l & Hll & Hact2). apply app_inv_head in Hll. subst l.
  pose proof Hf as (Hr & Hs & _).
  pose proof (put_run mul add A B itmax dn cap ps (log1 ++ log2) [] Hr Hs Hlt') as Hput. cbn [app] in Hput.
  rewrite foldM_app in Hput.
  destruct (foldM _ log1 _) as [[k1 o1]|] eqn:E1 in Hput;
    [|exfalso; specialize (Hput ltac:(rewrite (compl_keys_length _ itmax A B M row _ ps Hco Hmax ltac:(intros; apply bool_decide_eq_true) Hf); exact Hroom)); discriminate].
  cbn [bind] in Hput. unfold lastcol, grp in E1. cbn in E1. rewrite app_nil_r in E1.
  rewrite (Hact _ _ E1). cbn [bind].
  rewrite (Hact2 (k1, o1) (lastcol itmax ps, mkOut (dn ++ grp mul add ps) cap)); [reflexivity|].
  rewrite <- Hput; [reflexivity|].
  rewrite (compl_keys_length _ itmax A B M row _ ps Hco Hmax ltac:(intros; apply bool_decide_eq_true) Hf). exact Hroom.
Qed.

Lemma heapSymbolicRowC_correct itmax (A B M : csr V) row :
  compatible A B M -> row < rows A -> sorted_rows B -> StronglySorted lt (row_cols M row) ->
  row_cols M row <> [] -> cols B <= itmax ->
  forall h, hp h = [] -> length (row_entries A row) <= hcap h ->
  exists h', heapSymbolicRowC itmax A B M row h = Ok (h', length (compl_cols A B M row)) /\ emptied h h'.
Proof.
  intros Hco Hrow HsB HsM Hne Hmax.
  destruct (mask_bounds M row) as (mb & me & Hmb & Hme & Hlt & Hrb); [apply Hco|rewrite (co_rows _ _ _ Hco); exact Hrow|exact Hne|].
  assert (Hok : insp_ok 0 (nnz M)) by (left; lia).
  destruct (compl_log itmax A B M row mb me Hco Hrow HsB HsM Hmax Hmb Hme Hlt) as (log1 & log2 & ps & Hf & Hrun).
  destruct (grp_facts itmax A B M row Hco Hmax _ _ _ Hf) as (Hlt' & Hss & Hel & Hsum).
  intros h Hh Hcap. destruct (Hrun h Hh Hcap) as (h1 & h2 & h' & Hi & Hl & Ht & Hem).
  exists h'. split; [|exact Hem]. unfold heapSymbolicRowC. rewrite Hrb. cbn [bind].
  rewrite assert_true by (destruct (Nat.eqb_spec mb me); [lia|reflexivity]). cbn [bind]. rewrite Hi. cbn [bind].
  destruct (heapLoopC_log bump _ _ _ _ _ _ _ _ _ _ Hl) as (l & Hll & Hact). cbn in Hll. subst l.
  destruct (heapTail_log bump _ _ _ _ _ _ _ _ Ht) as (l & Hll & Hact2). apply app_inv_head in Hll. subst l.
  pose proof Hf as (Hr & Hs & _).
  pose proof (bump_run mul add A B itmax ps (log1 ++ log2) [] Hr Hs Hlt') as Hput. cbn [app] in Hput.
  rewrite foldM_app in Hput.
  destruct (foldM _ log1 _) as [[k1 o1]|] eqn:E1 in Hput; [|discriminate].
  cbn [bind] in Hput. unfold lastcol in E1. cbn in E1.
  rewrite (Hact _ _ E1). cbn [bind]. rewrite (Hact2 (k1, o1) _ Hput). cbn.
  rewrite (compl_keys_length _ itmax A B M row _ ps Hco Hmax ltac:(intros; apply bool_decide_eq_true) Hf). reflexivity.
Qed.

(** For a commutative and associative addition the order does not matter. *)
Lemma heap_row_unique (A B M : csr V) row l : (forall a b, add a b = add b a) ->
  (forall a b c, add a (add b c) = add (add a b) c) ->
  (forall j v, (j, v) ∈ l -> sum_in_some_order mul add A B row j v) ->
  fst <$> l = fst <$> spec_row mul add A B M row -> l = spec_row mul add A B M row.
Proof.
  intros Hc Ha Hs Hk.
  assert (Hv : forall j v, (j, v) ∈ l -> prod_entry mul add A B row j = Some v).
  { intros j v Hin. apply (some_order_unique add Hc Ha). auto. }
  assert (Hv' : forall j v, (j, v) ∈ spec_row mul add A B M row -> prod_entry mul add A B row j = Some v).
  { intros j v Hin. rewrite <- mrow_spec in Hin. apply mrow_elem in Hin as [_ Hin]. rewrite colval_entry in Hin. exact Hin. }
  revert Hk Hv Hv'. generalize (spec_row mul add A B M row) as k. clear.
  induction l as [|[j v] l IH]; intros [|[j' v'] k] Hk Hv Hv'; [reflexivity|discriminate|discriminate|].
  rewrite !fmap_cons in Hk. cbn in Hk. injection Hk as <- Hk.
  pose proof (Hv j v ltac:(left)) as H1. pose proof (Hv' j v' ltac:(left)) as H2.
  f_equal; [congruence|]. apply IH; auto; intros ? ? ?; [apply Hv|apply Hv']; right; assumption.
Qed.
End Final.

Definition rmapsnd {X Y} (r : res (X * Y)) : res Y := match r with Ok p => Ok (snd p) | Err f => Err f end.

Section AC2.
Context {V : Type} (mul add : V -> V -> V).

Lemma heapNumericRow_AC itmax insp (A B M : csr V) row :
  (forall a b, add a b = add b a) -> (forall a b c, add a (add b c) = add (add a b) c) ->
  compatible A B M -> row < rows A -> sorted_rows B -> StronglySorted lt (row_cols M row) ->
  row_cols M row <> [] -> cols B <= itmax -> insp_ok insp (nnz M) ->
  forall h dn cap, hp h = [] -> length (row_entries A row) <= hcap h ->
    length dn + length (spec_row mul add A B M row) <= cap ->
    exists h', heapNumericRow mul add itmax insp A B M row h (mkOut dn cap) =
        Ok (h', mkOut (dn ++ spec_row mul add A B M row) cap) /\ emptied h h'.
Proof.
  intros Hc Ha Hco Hrow HsB HsM Hne Hmax Hok.
  destruct (heapNumericRow_correct mul add itmax insp A B M row Hco Hrow HsB HsM Hne Hmax Hok) as (l & Hk & Hs & Hrun).
  rewrite <- (heap_row_unique mul add A B M row l Hc Ha Hs Hk). 
  intros h dn cap Hh Hcap Hroom. apply (Hrun h dn cap Hh Hcap).
  rewrite (heap_row_unique mul add A B M row l Hc Ha Hs Hk) in Hroom. exact Hroom.
Qed.

Lemma heapNumericRowC_AC itmax (A B M : csr V) row :
  (forall a b, add a b = add b a) -> (forall a b c, add a (add b c) = add (add a b) c) ->
  compatible A B M -> row < rows A -> sorted_rows B -> StronglySorted lt (row_cols M row) ->
  row_cols M row <> [] -> cols B <= itmax ->
  exists l, is_compl_row mul add A B M row l /\ StronglySorted lt (fst <$> l) /\
    forall h dn cap, hp h = [] -> length (row_entries A row) <= hcap h ->
      length dn + length (compl_cols A B M row) <= cap ->
      exists h', heapNumericRowC mul add itmax A B M row h (mkOut dn cap) = Ok (h', mkOut (dn ++ l) cap) /\ emptied h h'.
Proof.
  intros Hc Ha Hco Hrow HsB HsM Hne Hmax.
  destruct (heapNumericRowC_correct mul add itmax A B M row Hco Hrow HsB HsM Hne Hmax) as (l & Hss & Hk & Hs & Hrun).
  exists l. split; [|split; [exact Hss|exact Hrun]].
  split; [apply SSorted_NoDup, Hss|]. intros j v. split.
  - intros Hin. split; [|apply (some_order_unique add Hc Ha); auto].
    assert (j ∈ fst <$> l) as Hj by (apply elem_of_list_fmap; exists (j, v); auto).
    apply Hk, compl_cols_elem in Hj. tauto.
  - intros [Hj Hv]. assert (j ∈ fst <$> l) as Hin.
    { apply Hk, compl_cols_elem. split; [exact Hj|]. unfold prod_entry in Hv. rewrite <- colval_entry in Hv.
      destruct (decide (j ∈ (fun p : nat * V * V => fst (fst p)) <$> row_prods A B row)) as [H|H]; [exact H|].
      apply (colval_None mul add) in H. congruence. }
    apply elem_of_list_fmap in Hin as ([j' v'] & Heq & Hin). cbn in Heq. subst j'.
    pose proof (some_order_unique add Hc Ha mul A B row j v' (Hs j v' Hin)). congruence.
Qed.
End AC2.

Lemma heapSymbolicRowC_ok {V} itmax (A B M : csr V) row :
  compatible A B M -> row < rows A -> sorted_rows B -> StronglySorted lt (row_cols M row) ->
  row_cols M row <> [] -> cols B <= itmax ->
  forall h, hp h = [] -> length (row_entries A row) <= hcap h ->
  exists h', heapSymbolicRowC itmax A B M row h = Ok (h', length (compl_cols A B M row)) /\ emptied h h'.
Proof. apply (heapSymbolicRowC_correct (fun a _ => a) (fun a _ => a)). Qed.

From Verif Require Import Examples.
Lemma heap_order_refuted :
  exists (A B M : csr Z) row, compatible A B M /\ sorted_rows A /\ sorted_rows B /\ sorted_rows M /\ row < rows A /\
    rmapsnd (heapNumericRow Z.mul Z.sub 100 0 A B M row (heap_clean 3 0) (mkOut [] 2)) <>
      Ok (mkOut (spec_row Z.mul Z.sub A B M row) 2).
Proof.
  exists (mkCsr 1 3 3 [0;3] [0;1;2] [1;1;1]%Z), (mkCsr 3 1 3 [0;1;2;3] [0;0;0] [1;2;4]%Z), (mkCsr 1 1 1 [0;1] [0] [1]%Z), 0.
  split; [constructor; try reflexivity; prove_wf|]. split; [prove_sorted|]. split; [prove_sorted|].
  split; [prove_sorted|]. split; [simpl; lia|]. vm_compute. discriminate.
Qed.

Lemma heap_empty_mask_refuted :
  exists (A B M : csr Z) row, compatible A B M /\ sorted_rows A /\ sorted_rows B /\ sorted_rows M /\ row < rows A /\
    compl_cols A B M row <> [] /\
    heapNumericRowC Z.mul Z.add 100 A B M row (heap_clean 2 0) (mkOut [] 2) = Err AssertFail /\
    heapSymbolicRowC 100 A B M row (heap_clean 2 0) = Err AssertFail.
Proof.
  exists exA, exB, (mkCsr 3 4 1 [0;0;1;1] [2] [1]%Z), 0.
  split; [constructor; try reflexivity; try apply ex_compat; prove_wf|]. split; [exact exA_sorted|]. split; [exact exB_sorted|].
  split; [prove_sorted|]. split; [simpl; lia|]. split; [vm_compute; discriminate|]. split; vm_compute; reflexivity.
Qed.

Lemma heap_wrap_refuted :
  exists (A B M : csr Z) (insp : N) row, (insp < 2 ^ 64)%N /\ compatible A B M /\ sorted_rows A /\ sorted_rows B /\
    sorted_rows M /\ row < rows A /\ row_cols M row <> [] /\
    heapNumericRow Z.mul Z.add 100 insp A B M row (heap_clean 2 0) (mkOut [] 2) = Err OutOfBounds.
Proof.
  exists exA, exB, (mkCsr 3 4 3 [0;1;2;3] [1;0;2] [1;1;1]%Z), (2 ^ 64 - 2)%N, 2.
  split; [lia|].
  split; [constructor; try reflexivity; try apply ex_compat; prove_wf|]. split; [exact exA_sorted|]. split; [exact exB_sorted|].
  split; [prove_sorted|]. split; [simpl; lia|]. split; [vm_compute; discriminate|]. vm_compute. reflexivity.
Qed.
