(** C60: the R-MAT generator and the matrices made from it. *)
From stdpp Require Import numbers.
From Coq Require Import QArith.
From Verif Require Import MatModel BaseProofs ConcProofs WorkProofs MatProofs ConvProofs Assemble GtModel GtSpec GtProofs PropGt RmatModel RmatSpec RmatProofs RmatGenProofs.
From Verif Require Import Base Spec.
Local Open Scope nat_scope.
Local Opaque Nat.pow.

Lemma list_filter_iff' {A} (P Q : A -> Prop) `{forall x, Decision (P x), forall x, Decision (Q x)} (l : list A) :
  (forall x, x ∈ l -> P x <-> Q x) -> filter P l = filter Q l.
Proof.
  induction l as [|x l IH]; intros HPQ; [reflexivity|]. rewrite !filter_cons, IH by (intros y Hy; apply HPQ; right; exact Hy).
  specialize (HPQ x ltac:(left)). destruct (decide (P x)), (decide (Q x)); tauto.
Qed.

(** The counting sort orders any edge list by the lowest 32 bits of the start, keeps every edge with its end and weight, and
    keeps the order of the edges that agree in these bits. *)
Theorem C60_counting_sort {V} (jK jI : list nat) (jW : list V) (T : list (nat * nat * V)) m :
  length T = m -> length jK = m -> length jI = m -> length jW = m ->
  exists T', countingSort jK jI jW ((fun t => fst (fst t)) <$> T) ((fun t => snd (fst t)) <$> T) (snd <$> T) m =
      Ok ((fun t => fst (fst t)) <$> T', (fun t => snd (fst t)) <$> T', snd <$> T') /\
    StronglySorted (fun x y : nat * nat * V => fst (fst x) mod 2 ^ 32 <= fst (fst y) mod 2 ^ 32) T' /\ T' ≡ₚ T /\
    (forall r, filter (fun x => fst (fst x) mod 2 ^ 32 = r) T' = filter (fun x => fst (fst x) mod 2 ^ 32 = r) T).
Proof. apply countingSort_ok. Qed.

(** Starts of 2^32 and more are not sorted: any multiple of 2^32 stays in front of 0. *)
Lemma all_kept {A} (P : A -> Prop) `{forall x, Decision (P x)} (l l0 : list A) : filter P l = l0 -> length l0 = length l -> l = l0.
Proof.
  revert l0. induction l as [|x l IH]; intros l0 E HL; [exact E|]. rewrite filter_cons in E. destruct (decide (P x)) as [Hx|Hx].
  - subst l0. f_equal. apply IH; [reflexivity|]. simpl in HL. lia.
  - pose proof (filter_length P l). subst l0. simpl in HL. lia.
Qed.
Theorem C60_sort_refuted {V} (w x : V) (big : nat) : big mod 2 ^ 32 = 0 ->
  exists jK jI jW, countingSort jK jI jW [big; 0] [1; 1] [w; x] 2 = Ok ([big; 0], [1; 1], [w; x]).
Proof.
  intros Hb. destruct (countingSort_ok [0; 0] [0; 0] [w; w] [(big, 1, w); (0, 1, x)] 2 eq_refl eq_refl eq_refl eq_refl) as (T' & HT & _ & HP & HF).
  exists [0; 0], [0; 0], [w; w]. assert (E : T' = [(big, 1, w); (0, 1, x)]).
  { specialize (HF 0). refine (all_kept _ T' _ _ _).
    - rewrite HF, !filter_cons, filter_nil. rewrite decide_True by exact Hb. rewrite decide_True by (apply Nat.mod_0_l, Nat.pow_nonzero; discriminate). reflexivity.
    - apply Permutation_length in HP. symmetry. exact HP. }
  rewrite E in HT. exact HT.
Qed.

Section C60.
Context {D V : Type} (fadd fsub fmul fdiv : D -> D -> D) (fltb : D -> D -> bool) (f005 f05 : D).
Context (s1 s3 s4 : nat -> D) (weightAt : nat -> V).
Notation edgeOf := (edgeOf fadd fsub fmul fdiv fltb f005 f05 s1 s3 s4).
Notation accepted := (accepted fadd fsub fmul fdiv fltb f005 f05 s1 s3 s4).
Notation graphGen := (graphGen fadd fsub fmul fdiv fltb f005 f05 s1 s3 s4 weightAt).

(** The first [length (accepted n p0 K)] accepted attempts with their weights. *)
Definition raw n p0 K : list (nat * nat * V) := zip_with (fun e w => (fst e, snd e, w)) (accepted n p0 K) (weightAt <$> seq 0 (length (accepted n p0 K))).

(** Whatever the arithmetic, the draws and the number of rounds allowed, a run of graphGen either has not finished or gives a
    graph on n vertices with exactly the first m attempts that are no self loops, each with its weight, sorted by start
    (stably, when n is at most 2^32). *)
Theorem C60_graph n m p0 junk junkW fuel : 0 < n -> length junk = m -> length junkW = m ->
  graphGen fuel junk junkW n m p0 = Err OutOfFuel \/
  exists G p1 K E, graphGen fuel junk junkW n m p0 = Ok (G, p1) /\ g_n G = n /\ g_m G = m /\ graph_edges G E /\
    length (accepted n p0 K) = m /\ E ≡ₚ raw n p0 K /\
    (n <= 2 ^ 32 -> StronglySorted le ((fun x => fst (fst x)) <$> E) /\
       forall s, filter (fun x => fst (fst x) = s) E = filter (fun x => fst (fst x) = s) (raw n p0 K)).
Proof.
  intros Hn HJ HW. unfold RmatModel.graphGen.
  assert (H0 := edgeLoop_ok fadd fsub fmul fdiv fltb f005 f05 s1 s3 s4 n p0 junk fuel 0). cbv zeta in H0.
  assert (A0 : accepted n p0 0 = []) by reflexivity. rewrite A0 in H0. cbn [length fmap list_fmap app] in H0. rewrite drop_0 in H0.
  change (genAt fadd fsub fmul fdiv fltb f005 f05 s3 s4 n p0 0) with (mkGen p0 0 0) in H0. rewrite HJ in H0.
  destruct H0 as [H|(K & _ & HK & H)]; [lia| |].
  - left. rewrite H. reflexivity.
  - right. rewrite H, bind_Ok. clear H.
    rewrite (fill_loop (weightAt <$> seq 0 m)); [|rewrite fmap_length, seq_length; reflexivity|exact HW|].
    2:{ intros i y d Hy _. rewrite list_lookup_fmap in Hy. destruct (seq 0 m !! i) as [j|] eqn:E; [|discriminate]. apply lookup_seq in E as [-> _]. injection Hy as <-. reflexivity. }
    rewrite bind_Ok.
    assert (HR : length (raw n p0 K) = m) by (unfold raw; rewrite zip_with_length, fmap_length, seq_length; lia).
    assert (R1 : (fun t => fst (fst t)) <$> raw n p0 K = fst <$> accepted n p0 K).
    { unfold raw. rewrite HK. clear -HK. assert (HL : length (accepted n p0 K) = length (weightAt <$> seq 0 m)) by (rewrite fmap_length, seq_length; exact HK). revert HL. generalize (weightAt <$> seq 0 m). generalize (accepted n p0 K).
      induction l as [|x l IH]; intros [|w l0] HL; try discriminate; [reflexivity|]. simpl. f_equal. apply IH. simpl in HL. lia. }
    assert (R2 : (fun t => snd (fst t)) <$> raw n p0 K = snd <$> accepted n p0 K).
    { unfold raw. rewrite HK. clear -HK. assert (HL : length (accepted n p0 K) = length (weightAt <$> seq 0 m)) by (rewrite fmap_length, seq_length; exact HK). revert HL. generalize (weightAt <$> seq 0 m). generalize (accepted n p0 K).
      induction l as [|x l IH]; intros [|w l0] HL; try discriminate; [reflexivity|]. simpl. f_equal. apply IH. simpl in HL. lia. }
    assert (R3 : snd <$> raw n p0 K = weightAt <$> seq 0 m).
    { unfold raw. rewrite HK. clear -HK. assert (HL : length (accepted n p0 K) = length (weightAt <$> seq 0 m)) by (rewrite fmap_length, seq_length; exact HK). revert HL. generalize (weightAt <$> seq 0 m). generalize (accepted n p0 K).
      induction l as [|x l IH]; intros [|w l0] HL; try discriminate; [reflexivity|]. simpl. f_equal. apply IH. simpl in HL. lia. }
    destruct (countingSort_ok junk junk junkW (raw n p0 K) m HR HJ HJ HW) as (T' & HT & HS & HP & HF). rewrite R1, R2, R3 in HT. rewrite HT, bind_Ok.
    eexists _, _, K, T'. split; [reflexivity|]. split; [reflexivity|]. split; [reflexivity|].
    assert (LT : length T' = m) by (rewrite HP; exact HR).
    assert (InR : forall s e w, (s, e, w) ∈ T' -> s < n /\ e < n).
    { intros s e w Hin. rewrite HP in Hin. unfold raw in Hin. apply elem_of_lookup_zip_with in Hin as (i & x & y & E & Hx & _). injection E as -> -> _.
      apply elem_of_list_lookup_2 in Hx. apply elem_of_list_filter in Hx as [_ Hx]. apply elem_of_list_fmap in Hx as (k & -> & _). apply edgeOf_lt, Hn. }
    split; [|split; [exact HK|split; [exact HP|]]].
    + split; [exact LT| |exact InR]. intros k s e w Hk. simpl. rewrite !list_lookup_fmap, Hk. auto.
    + intros H32. assert (M : forall x, x ∈ T' -> fst (fst x) mod 2 ^ 32 = fst (fst x)).
      { intros [[s e] w] Hx. simpl fst. apply Nat.mod_small. apply InR in Hx. lia. }
      split.
      * assert (HS' : StronglySorted (fun x y : nat * nat * V => fst (fst x) <= fst (fst y)) T').
        { refine (SS_weaken _ _ T' _ HS). intros x y Hx Hy H. rewrite (M x Hx), (M y Hy) in H. exact H. }
        clear -HS'. induction HS' as [|x l Hs IH Hf]; [constructor|]. rewrite fmap_cons. constructor; [exact IH|]. rewrite Forall_fmap. exact Hf.
      * intros s. destruct (decide (s < 2 ^ 32)) as [Hs|Hs].
        -- specialize (HF s). rewrite <- (list_filter_iff' (fun x : nat * nat * V => fst (fst x) mod 2 ^ 32 = s) (fun x => fst (fst x) = s) T'); [|intros x Hx; rewrite (M x Hx); reflexivity].
           rewrite HF. apply list_filter_iff'. intros x Hx. rewrite <- HP in Hx. rewrite (M x Hx). reflexivity.
        -- assert (N : forall l : list (nat * nat * V), (forall x, x ∈ l -> fst (fst x) < n) -> filter (fun x => fst (fst x) = s) l = []).
           { clear -Hs H32. induction l as [|x l IH]; intros H; [reflexivity|]. rewrite filter_cons, decide_False by (specialize (H x ltac:(left)); lia). apply IH. intros y Hy. apply H. right. exact Hy. }
           rewrite !N; [reflexivity| |]; intros [[a b] c] Hx; [rewrite <- HP in Hx|]; apply InR in Hx; simpl; lia.
Qed.

(** If attempts other than self loops never run out, some number of rounds is enough. *)
Theorem C60_terminates n m p0 junk junkW : 0 < n -> length junk = m -> length junkW = m ->
  (forall k, exists k', k <= k' /\ fst (edgeOf n p0 k') <> snd (edgeOf n p0 k')) -> exists fuel r, graphGen fuel junk junkW n m p0 = Ok r.
Proof.
  intros Hn HJ HW Hinf. destruct (edgeLoop_ends fadd fsub fmul fdiv fltb f005 f05 s1 s3 s4 n p0 junk Hinf m 0) as (fuel & r & Hr); [simpl; lia|].
  exists fuel. destruct (C60_graph n m p0 junk junkW fuel Hn HJ HW) as [H|(G & p1 & K & E & H & _)]; [|eauto]. exfalso.
  unfold RmatModel.graphGen in H. assert (A0 : accepted n p0 0 = []) by reflexivity. rewrite A0 in Hr. cbn [length fmap list_fmap app] in Hr. rewrite drop_0, HJ in Hr.
  change (genAt fadd fsub fmul fdiv fltb f005 f05 s3 s4 n p0 0) with (mkGen p0 0 0) in Hr.
  assert (H0 := edgeLoop_ok fadd fsub fmul fdiv fltb f005 f05 s1 s3 s4 n p0 junk fuel 0). cbv zeta in H0.
  rewrite A0 in H0. cbn [length fmap list_fmap app] in H0. rewrite drop_0 in H0.
  change (genAt fadd fsub fmul fdiv fltb f005 f05 s3 s4 n p0 0) with (mkGen p0 0 0) in H0. rewrite HJ in H0.
  destruct H0 as [H0|(K & _ & HK & H0)]; [lia|congruence|]. rewrite H0, bind_Ok in H.
  rewrite (fill_loop (weightAt <$> seq 0 m)) in H; [|rewrite fmap_length, seq_length; reflexivity|exact HW|].
  2:{ intros i y d Hy _. rewrite list_lookup_fmap in Hy. destruct (seq 0 m !! i) as [j|] eqn:E; [|discriminate]. apply lookup_seq in E as [-> _]. injection Hy as <-. reflexivity. }
  rewrite bind_Ok in H.
  assert (exists T, length T = m /\ (fun t : nat * nat * V => fst (fst t)) <$> T = fst <$> accepted n p0 K /\ (fun t : nat * nat * V => snd (fst t)) <$> T = snd <$> accepted n p0 K /\ snd <$> T = weightAt <$> seq 0 m) as (T & LT & T1 & T2 & T3).
  { clear -HK. assert (HL : length (accepted n p0 K) = length (weightAt <$> seq 0 m)) by (rewrite fmap_length, seq_length; exact HK). revert HK HL. generalize (weightAt <$> seq 0 m). generalize (accepted n p0 K).
    intros l l0 <-. revert l0. induction l as [|x l IH]; intros [|w l0] HL; try discriminate; [exists []; auto|]. destruct (IH l0) as (T & H1 & H2 & H3 & H4); [simpl in HL; lia|].
    exists ((fst x, snd x, w) :: T). rewrite !fmap_cons, H2, H3, H4. simpl. auto. }
  rewrite <- T1, <- T2, <- T3 in H. destruct (countingSort_ok junk junk junkW T m LT HJ HJ HW) as (T' & HT & _). rewrite HT in H. discriminate.
Qed.

(** One vertex (scale 0): every attempt is a self loop, so the generator never finishes. *)
Theorem C60_one_vertex_refuted m p0 junk junkW fuel : 0 < m -> length junk = m -> length junkW = m -> graphGen fuel junk junkW 1 m p0 = Err OutOfFuel.
Proof.
  intros Hm HJ HW. destruct (C60_graph 1 m p0 junk junkW fuel ltac:(lia) HJ HW) as [H|(G & p1 & K & E & _ & _ & _ & _ & HK & _)]; [exact H|].
  assert (A : accepted 1 p0 K = []).
  { clear. induction K as [|K IH]; [reflexivity|]. rewrite accepted_S, IH. rewrite decide_False; [reflexivity|]. intros H. apply H. reflexivity. }
  rewrite A in HK. simpl in HK. lia.
Qed.

Context (dflt : V) (add : V -> V -> V) (ltV : V -> V -> Prop) (srt : list (nat * nat * V) -> list (nat * nat * V)) (Hsrt : edge_sort ltV srt).
Notation createMatrix := (createMatrix fadd fsub fmul fdiv fltb f005 f05 s1 s3 s4 weightAt dflt add srt).

(** The generated matrix: square, well formed, strictly increasing columns, no diagonal entry, an entry exactly where an
    accepted attempt fell, its value the sum of the weights of those attempts. *)
Theorem C60_matrix scale degree p0 junk junkW fuel : scale <= 32 -> 0 < degree -> length junk = 2 ^ scale * degree -> length junkW = 2 ^ scale * degree ->
  createMatrix fuel junk junkW scale degree p0 = Err OutOfFuel \/
  exists R K, createMatrix fuel junk junkW scale degree p0 = Ok R /\ wf_csc R /\ c_rows R = 2 ^ scale /\ c_cols R = 2 ^ scale /\ sorted_cols R /\
    length (accepted (2 ^ scale) p0 K) = 2 ^ scale * degree /\
    (forall s e, s ∈ fst <$> col_entries R e <-> (s, e) ∈ accepted (2 ^ scale) p0 K) /\
    (forall s, s ∉ fst <$> col_entries R s) /\
    (forall s e v, (s, v) ∈ col_entries R e -> sum_of add (weights (raw (2 ^ scale) p0 K) s e) v).
Proof.
  intros Hs Hd HJ HW. assert (Hn : 0 < 2 ^ scale) by (apply Nat.neq_0_lt_0, Nat.pow_nonzero; discriminate). unfold RmatModel.createMatrix.
  destruct (C60_graph (2 ^ scale) (2 ^ scale * degree) p0 junk junkW fuel Hn HJ HW) as [->|(G & p1 & K & E & -> & Gn & Gm & GE & HK & HP & H32)]; [left; reflexivity|right].
  rewrite bind_Ok. destruct H32 as [Hsort _]; [apply Nat.pow_le_mono_r; [discriminate|exact Hs]|].
  destruct (C59_csc_of_graph dflt add ltV srt Hsrt G E GE Hsort) as (R & HR & Hw & Hr & Hc & Hsc & Hpos & Hval); [rewrite Gm; nia|].
  assert (Mem : forall s e, (exists w, (s, e, w) ∈ E) <-> (s, e) ∈ accepted (2 ^ scale) p0 K).
  { intros s e. transitivity (exists w, (s, e, w) ∈ raw (2 ^ scale) p0 K); [setoid_rewrite HP; reflexivity|]. unfold raw. split.
    - intros [w Hin]. apply elem_of_lookup_zip_with in Hin as (i & x & y & Eq & Hx & _). injection Eq as -> -> _. rewrite <- surjective_pairing. eapply elem_of_list_lookup_2, Hx.
    - intros Hin. apply elem_of_list_lookup in Hin as [i Hi]. exists (weightAt i). apply elem_of_lookup_zip_with. exists i, (s, e), (weightAt i). split; [reflexivity|]. split; [exact Hi|].
      rewrite list_lookup_fmap, lookup_seq_lt by (eapply lookup_lt_Some, Hi). reflexivity. }
  exists R, K. split; [exact HR|]. split; [exact Hw|]. split; [rewrite Hr; exact Gn|]. split; [rewrite Hc; exact Gn|]. split; [exact Hsc|]. split; [exact HK|]. split; [|split].
  - intros s e. rewrite Hpos. apply Mem.
  - intros s Hin. apply Hpos, Mem in Hin. unfold RmatSpec.accepted in Hin. apply elem_of_list_filter in Hin as [Hne _]. apply Hne. reflexivity.
  - intros s e v Hin. destruct (Hval s e v Hin) as (w & r & Hperm & Hv). exists w, r. split; [|exact Hv]. rewrite Hperm. unfold weights. rewrite HP. reflexivity.
Qed.

(** Average degree 0: no edges, and the constructor reads the first one all the same. *)
Theorem C60_degree0_refuted scale p0 fuel : createMatrix (1 + fuel) [] [] scale 0 p0 = Err OutOfBounds.
Proof.
  unfold RmatModel.createMatrix. rewrite Nat.mul_0_r. unfold RmatModel.graphGen. cbn [RmatModel.edgeLoop Nat.add Nat.ltb Nat.leb]. rewrite bind_Ok.
  destruct (countingSort_ok [] [] (@nil V) [] 0 eq_refl eq_refl eq_refl eq_refl) as (T' & HT & _ & HP & _). cbn [fmap list_fmap] in HT.
  change (for_ 0 0 (fun (i : nat) w => set_ w i (weightAt i)) []) with (Ok (@nil V)). rewrite bind_Ok, HT, bind_Ok.
  apply Permutation_nil_r in HP. subst T'. reflexivity.
Qed.

(** The two generated inputs of the sample programs: each is a generated matrix (so [C60_matrix] applies), the second one for
    the variables the first run left behind; the streams restart, so with unchanged variables the inputs are the same. *)
Theorem C60_two_inputs scale degree p0 junk junkW fuel A B :
  createInputs fadd fsub fmul fdiv fltb f005 f05 s1 s3 s4 weightAt dflt add srt fuel junk junkW scale degree p0 = Ok (A, B) ->
  exists G p1, graphGen fuel junk junkW (2 ^ scale) (2 ^ scale * degree) p0 = Ok (G, p1) /\
    createMatrix fuel junk junkW scale degree p0 = Ok A /\ createMatrix fuel junk junkW scale degree p1 = Ok B /\ (p1 = p0 -> A = B).
Proof.
  unfold createInputs, RmatModel.createMatrix. destruct (graphGen fuel junk junkW (2 ^ scale) (2 ^ scale * degree) p0) as [[G p1]|] eqn:E1; [|discriminate]. rewrite !bind_Ok.
  destruct (cscOfGraph dflt add srt G) as [A'|] eqn:EA; [|discriminate]. rewrite bind_Ok.
  destruct (graphGen fuel junk junkW (2 ^ scale) (2 ^ scale * degree) p1) as [[G2 p2]|] eqn:E2; [|discriminate]. rewrite bind_Ok.
  destruct (cscOfGraph dflt add srt G2) as [B'|] eqn:EB; [|discriminate]. rewrite bind_Ok. intros H.
  assert (A' = A) as <- by congruence. assert (B' = B) as <- by congruence.
  exists G, p1. split; [reflexivity|]. split; [reflexivity|]. split; [rewrite E2, bind_Ok; exact EB|]. intros ->. rewrite E1 in E2. congruence.
Qed.
End C60.

(** ** Exact arithmetic: where the requested parameters are not honoured. *)
Definition Qltb (x y : Q) : bool := negb (Qle_bool y x).
Notation graphGenQ s1 s3 s4 := (graphGen Qplus Qminus Qmult Qdiv Qltb (1#20) (1#2) s1 s3 s4).

(** A draw that is exactly a + b belongs to none of the last three quadrants: at the first level of the uniform setting
    (0.25 each) the draw 0.5 keeps both vertices in the first half. *)
Theorem C60_boundary_refuted : quad Qplus Qltb (1#2) (1#4, 1#4, 1#4, 1#4) = (0, 0) /\ quad Qplus Qltb (3#4) (1#4, 1#4, 1#4, 1#4) = (0, 0) /\
  quad Qplus Qltb (51#100) (1#4, 1#4, 1#4, 1#4) = (1, 0) /\ quad Qplus Qltb (76#100) (1#4, 1#4, 1#4, 1#4) = (1, 1).
Proof. repeat split. Qed.

(** The variables left behind are not the requested ones, and the second graph starts from them: for all draws of streams 3
    and 4 equal to 1/2 the second parameter after a run with 0.25 each is larger than 0.25. *)
Definition C60_s1 (k : nat) : Q := if Nat.even k then 3#10 else 6#10.
Theorem C60_drift_refuted : exists G p1, graphGenQ C60_s1 (fun _ => 1#2) (fun _ => 1#2) (fun _ => 7) 10 [0; 0] [0; 0] 2 2 (1#4, 1#4, 1#4, 1#4) = Ok (G, p1) /\
  G = mkGraph 2 2 [0; 1] [1; 0] [7; 7] /\ Qlt (1#4) (snd (fst (fst p1))) /\ Qlt (fst (fst (fst p1))) (1#4).
Proof. vm_compute. eexists _, _. split; [reflexivity|]. split; [reflexivity|]. split; reflexivity. Qed.

(** A complete run of scale 1, degree 1: the hypotheses of the theorems hold and the matrix has the two entries. *)
Example C60_run : createMatrix Qplus Qminus Qmult Qdiv Qltb (1#20) (1#2) C60_s1 (fun _ => 1#2) (fun _ => 1#2) (fun i => 5 + i) 0 Nat.add (foldr insert_edge [])
    10 [9; 9] [8; 8] 1 1 (1#4, 1#4, 1#4, 1#4) = Ok (mkCsc 2 2 2 [0; 1; 2] [1; 0] [6; 5]).
Proof. vm_compute. reflexivity. Qed.
Example C60_inputs : 1 <= 32 /\ 0 < 1 /\ length [9; 9] = 2 ^ 1 * 1.
Proof. split; [lia|]. split; [lia|reflexivity]. Qed.
(** Attempts that are not self loops never run out for these draws. *)
Example C60_inputs_terminate : forall k, exists k', k <= k' /\
  fst (edgeOf Qplus Qminus Qmult Qdiv Qltb (1#20) (1#2) C60_s1 (fun _ => 1#2) (fun _ => 1#2) 2 (1#4, 1#4, 1#4, 1#4) k') <>
  snd (edgeOf Qplus Qminus Qmult Qdiv Qltb (1#20) (1#2) C60_s1 (fun _ => 1#2) (fun _ => 1#2) 2 (1#4, 1#4, 1#4, 1#4) k').
Proof.
  intros k. exists k. split; [lia|]. unfold edgeOf, quadAt. change (Nat.log2 2) with 1. rewrite Nat.mul_1_r. cbn [seq fmap list_fmap]. rewrite Nat.add_0_r. unfold parAt, C60_s1.
  destruct (Nat.even k); vm_compute; discriminate.
Qed.

Print Assumptions C60_counting_sort.
Print Assumptions C60_sort_refuted.
Print Assumptions C60_graph.
Print Assumptions C60_terminates.
Print Assumptions C60_one_vertex_refuted.
Print Assumptions C60_matrix.
Print Assumptions C60_degree0_refuted.
Print Assumptions C60_boundary_refuted.
Print Assumptions C60_drift_refuted.
Print Assumptions C60_two_inputs.
