(** C59: the matrix constructors from a graph of the GTgraph library. *)
From Verif Require Import GtModel GtSpec GtProofs Assemble MatProofs BaseProofs.
From Verif Require Import Base Spec.

Section C59.
Context {V : Type} (dflt : V) (add : V -> V -> V) (ltV : V -> V -> Prop) (srt : list (nat * nat * V) -> list (nat * nat * V)) (Hsrt : edge_sort ltV srt).

(** Every graph with at least one edge whose edges come in the order of their start vertices becomes a well-formed
    matrix with strictly increasing rows that stores exactly one entry for every pair of vertices joined by an edge; its
    value is the sum of the weights of those edges. *)
Theorem C59_csr_of_graph (G : graph V) E : graph_edges G E -> StronglySorted le ((fun x => fst (fst x)) <$> E) -> 0 < g_m G ->
  exists R, csrOfGraph dflt add srt G = Ok R /\ wf R /\ rows R = g_n G /\ cols R = g_n G /\ sorted_rows R /\
    (forall s e, e ∈ row_cols R s <-> exists w, (s, e, w) ∈ E) /\
    (forall s e v, (e, v) ∈ row_entries R s -> sum_of add (weights E s e) v).
Proof.
  intros HG Hs Hm. eexists. split; [apply (csrOfGraph_ok add ltV srt Hsrt dflt G E HG Hs Hm)|].
  destruct (allGroups_good add ltV srt Hsrt E Hs) as [G1 G2 G3].
  set (B := bucket (keyed (fun t => fst (fst t)) (fun t => snd (fst t)) (allGroups add srt E))).
  assert (InE : forall t, t ∈ allGroups add srt E -> exists w, (fst (fst t), snd (fst t), w) ∈ E).
  { intros t Ht. assert (Hp : fst t ∈ fst <$> E) by (apply G2, elem_of_list_fmap; eauto). apply elem_of_list_fmap in Hp as ([[s e] w] & E1 & Hp). rewrite E1. eauto. }
  assert (Hw : wf (assemble B (g_n G) (g_n G))).
  { apply assemble_wf. intros i c v _ Hin. apply keyed_elem in Hin as (t & Ht & _ & <- & _). destruct (InE t Ht) as [w Hw]. apply (ge_range _ _ HG _ _ _ Hw). }
  assert (Row : forall s, row_entries (assemble B (g_n G) (g_n G)) s = if decide (s < g_n G) then B s else []).
  { intros s. destruct (decide (s < g_n G)) as [H|H]; [apply assemble_row, H|]. unfold row_entries.
    replace (rowptr (assemble B (g_n G) (g_n G)) !! (s + 1)) with (@None nat); [destruct (_ !! s); reflexivity|].
    symmetry. apply lookup_ge_None_2. simpl. rewrite fmap_length, seq_length. lia. }
  split; [exact Hw|]. split; [reflexivity|]. split; [reflexivity|]. split; [|split].
  - intros i Hi. simpl in Hi. unfold row_cols. rewrite assemble_row by exact Hi. apply keyed_sorted; [exact G1|]. unfold plt. intros t u. lia.
  - intros s e. unfold row_cols. rewrite Row. split.
    + intros H. apply elem_of_list_fmap in H as ([c v] & -> & H). destruct (decide _); [|inversion H]. apply keyed_elem in H as (t & Ht & <- & <- & _). apply InE, Ht.
    + intros [w Hin]. rewrite decide_True by apply (ge_range _ _ HG _ _ _ Hin). assert (Hp : (s, e) ∈ fst <$> allGroups add srt E).
      { apply G2, elem_of_list_fmap. exists (s, e, w). auto. }
      apply elem_of_list_fmap in Hp as (t & Et & Ht). apply elem_of_list_fmap. exists (e, snd t). split; [reflexivity|]. apply keyed_elem. exists t. rewrite <- Et. auto.
  - intros s e v. rewrite Row. destruct (decide _); [|intros H; inversion H]. intros H. apply keyed_elem in H as (t & Ht & <- & <- & <-).
    rewrite (fst_eta t) in Ht. exact (G3 _ _ Ht).
Qed.

(** The same for compressed columns. *)
Theorem C59_csc_of_graph (G : graph V) E : graph_edges G E -> StronglySorted le ((fun x => fst (fst x)) <$> E) -> 0 < g_m G ->
  exists R, cscOfGraph dflt add srt G = Ok R /\ wf_csc R /\ c_rows R = g_n G /\ c_cols R = g_n G /\ sorted_cols R /\
    (forall s e, s ∈ fst <$> col_entries R e <-> exists w, (s, e, w) ∈ E) /\
    (forall s e v, (s, v) ∈ col_entries R e -> sum_of add (weights E s e) v).
Proof.
  intros HG Hs Hm. destruct (cscOfGraph_ok add ltV srt Hsrt dflt G E HG Hs Hm) as (R & HR & HA). exists R. split; [exact HR|].
  destruct (allGroups_good add ltV srt Hsrt E Hs) as [G1 G2 G3].
  set (B := bucket (keyed (fun t => snd (fst t)) (fun t => fst (fst t)) (allGroups add srt E))) in *.
  assert (InE : forall t, t ∈ allGroups add srt E -> exists w, (fst (fst t), snd (fst t), w) ∈ E).
  { intros t Ht. assert (Hp : fst t ∈ fst <$> E) by (apply G2, elem_of_list_fmap; eauto). apply elem_of_list_fmap in Hp as ([[s e] w] & E1 & Hp). rewrite E1. eauto. }
  assert (Hw : wf (assemble B (g_n G) (g_n G))).
  { apply assemble_wf. intros i c v _ Hin. apply keyed_elem in Hin as (t & Ht & _ & <- & _). destruct (InE t Ht) as [w Hw]. apply (ge_range _ _ HG _ _ _ Hw). }
  assert (Row : forall s, row_entries (assemble B (g_n G) (g_n G)) s = if decide (s < g_n G) then B s else []).
  { intros s. destruct (decide (s < g_n G)) as [H|H]; [apply assemble_row, H|]. unfold row_entries.
    replace (rowptr (assemble B (g_n G) (g_n G)) !! (s + 1)) with (@None nat); [destruct (_ !! s); reflexivity|].
    symmetry. apply lookup_ge_None_2. simpl. rewrite fmap_length, seq_length. lia. }
  assert (Hr : c_rows R = g_n G) by exact (f_equal cols HA). assert (Hc : c_cols R = g_n G) by exact (f_equal rows HA).
  unfold wf_csc, sorted_cols, col_entries. rewrite HA, Hc, Hr.
  split; [exact Hw|]. split; [reflexivity|]. split; [reflexivity|]. split; [|split].
  - intros i Hi. rewrite assemble_row by exact Hi. apply keyed_sorted; [exact G1|]. unfold plt. intros t u. lia.
  - intros s e. rewrite Row. split.
    + intros H. apply elem_of_list_fmap in H as ([c v] & -> & H). destruct (decide _); [|inversion H]. apply keyed_elem in H as (t & Ht & <- & <- & _). apply InE, Ht.
    + intros [w Hin]. rewrite decide_True by apply (ge_range _ _ HG _ _ _ Hin). assert (Hp : (s, e) ∈ fst <$> allGroups add srt E).
      { apply G2, elem_of_list_fmap. exists (s, e, w). auto. }
      apply elem_of_list_fmap in Hp as (t & Et & Ht). apply elem_of_list_fmap. exists (s, snd t). split; [reflexivity|]. apply keyed_elem. exists t. rewrite <- Et. auto.
  - intros s e v. rewrite Row. destruct (decide _); [|intros H; inversion H]. intros H. apply keyed_elem in H as (t & Ht & <- & <- & <-).
    rewrite (fst_eta t) in Ht. exact (G3 _ _ Ht).
Qed.

(** A graph without edges: the first edge is read all the same. *)
Theorem C59_empty_refuted (n : nat) : csrOfGraph dflt add srt (mkGraph n 0 [] [] []) = Err OutOfBounds /\ cscOfGraph dflt add srt (mkGraph n 0 [] [] []) = Err OutOfBounds.
Proof. split; reflexivity. Qed.

(** Edges whose starts are not grouped: the two parallel edges (0, 1) stay two entries, so the row stores a column twice. *)
Theorem C59_ungrouped_refuted (u w x : V) : exists R, csrOfGraph dflt add srt (mkGraph 2 3 [0; 1; 0] [1; 0; 1] [u; w; x]) = Ok R /\ row_entries R 0 = [(1, u); (1, x)].
Proof.
  unfold csrOfGraph.
  assert (HG : graph_edges (mkGraph 2 3 [0; 1; 0] [1; 0; 1] [u; w; x]) [(0, 1, u); (1, 0, w); (0, 1, x)]).
  { split; [reflexivity| |].
    - intros [|[|[|k]]] s e v H; simpl in H; try discriminate; injection H as <- <- <-; repeat split.
    - intros s e v H. simpl. repeat (apply elem_of_cons in H as [H|H]; [injection H as -> -> ->; lia|]). inversion H. }
  rewrite (simpleEdges_ok add ltV srt Hsrt _ _ HG) by (simpl; lia). rewrite bind_Ok. simpl.
  assert (S1 : forall y, srt [y] = [y]) by (intros y; destruct (Hsrt [y]) as [P _]; apply Permutation_singleton_r, P).
  rewrite !S1. simpl. eexists. split; reflexivity.
Qed.
End C59.

(** For an addition that may be reordered the value does not depend on the order. *)
Theorem C59_sum {V} (add : V -> V -> V) : (forall a b, add a b = add b a) -> (forall a b c, add a (add b c) = add (add a b) c) ->
  forall w r v, sum_of add (w :: r) v -> v = fold_left add r w.
Proof.
  intros Hc Ha w r v (w' & r' & P & ->).
  assert (F : forall l a b, fold_left add l (add a b) = add a (fold_left add l b)).
  { induction l as [|x l IH]; intros a b; [reflexivity|]. simpl. rewrite <- Ha. apply IH. }
  assert (Q : forall l1 l2 : list V, l1 ≡ₚ l2 -> forall a, fold_left add l1 a = fold_left add l2 a).
  { intros l1 l2 P'. induction P' as [|x l1 l2 _ IH|x y l|l1 l2 l3 _ IH1 _ IH2]; intros a; [reflexivity|apply IH| |rewrite IH1; apply IH2].
    simpl. f_equal. rewrite <- !Ha. f_equal. apply Hc. }
  revert w r P. induction r' as [|x r' IH] using rev_ind; intros w r P.
  - apply Permutation_singleton_l in P. injection P as -> ->. reflexivity.
  - assert (Hin : x ∈ w :: r) by (rewrite <- P; apply elem_of_cons; right; apply elem_of_app; right; left).
    rewrite fold_left_app. simpl. apply elem_of_cons in Hin as [->|Hin].
    + assert (P2 : w' :: r' ≡ₚ r).
      { apply (Permutation_cons_inv (a := w)). rewrite <- P, Permutation_cons_append. reflexivity. }
      destruct r as [|z r]; [symmetry in P2; apply Permutation_nil_cons in P2; destruct P2|]. rewrite (IH z r P2). simpl. rewrite F. apply Hc.
    + apply elem_of_Permutation in Hin as [r2 P3]. assert (P2 : w' :: r' ≡ₚ w :: r2).
      { apply (Permutation_cons_inv (a := x)). transitivity (w :: x :: r2); [|apply perm_swap]. rewrite <- P3, <- P. apply (Permutation_cons_append (w' :: r')). }
      rewrite (IH w r2 P2). rewrite (Q _ _ P3). simpl. rewrite (Hc w x), F. apply Hc.
Qed.

(** A concrete graph: 3 vertices, 4 edges, two of them parallel, sorted by insertion. *)
Definition insert_edge (x : nat * nat * nat) (l : list (nat * nat * nat)) : list (nat * nat * nat) :=
  let ltb (a b : nat * nat * nat) := (fst (fst a) <? fst (fst b)) || ((fst (fst a) =? fst (fst b)) &&
    ((snd (fst a) <? snd (fst b)) || ((snd (fst a) =? snd (fst b)) && (snd a <? snd b)))) in
  (fix ins l := match l with [] => [x] | y :: l' => if ltb y x then y :: ins l' else x :: l end) l.
Definition C59_G : graph nat := mkGraph 3 4 [0; 0; 0; 2] [2; 1; 2; 0] [5; 7; 3; 4].
Example C59_inputs : graph_edges C59_G [(0, 2, 5); (0, 1, 7); (0, 2, 3); (2, 0, 4)] /\
  StronglySorted le ((fun x : nat * nat * nat => fst (fst x)) <$> [(0, 2, 5); (0, 1, 7); (0, 2, 3); (2, 0, 4)]) /\ 0 < g_m C59_G.
Proof.
  split; [split|].
  - reflexivity.
  - intros [|[|[|[|k]]]] s e v H; simpl in H; try discriminate; injection H as <- <- <-; repeat split.
  - intros s e v H. simpl. repeat (apply elem_of_cons in H as [H|H]; [injection H as -> -> ->; lia|]). inversion H.
  - split; [|simpl; lia]. simpl. repeat constructor; lia.
Qed.
Example C59_run : csrOfGraph 0 Nat.add (foldr insert_edge []) C59_G = Ok (mkCsr 3 3 3 [0; 2; 2; 3] [1; 2; 0] [7; 8; 4]) /\
  cscOfGraph 0 Nat.add (foldr insert_edge []) C59_G = Ok (mkCsc 3 3 3 [0; 1; 2; 3] [2; 0; 0] [4; 7; 8]).
Proof. split; reflexivity. Qed.

Print Assumptions C59_csr_of_graph.
Print Assumptions C59_csc_of_graph.
Print Assumptions C59_empty_refuted.
Print Assumptions C59_ungrouped_refuted.
Print Assumptions C59_sum.
