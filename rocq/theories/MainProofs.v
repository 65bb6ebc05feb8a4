(** Sum and number of entries of the complemented product of a matrix with itself. *)
From Coq Require Import NArith ZArith.
From stdpp Require Import numbers list_numbers.
From Verif Require Import BaseProofs Assemble MatSpec ConvProofs TransFill TriProofs TriAllModel MainSpec.
From Verif Require Import Base Spec.
Local Open Scope nat_scope.
Local Notation M64 := (2 ^ 64)%Z.

(** ** Sums over lists *)
Definition sg {X} (f : X -> Z) (l : list X) : Z := foldr (fun x s => f x + s)%Z 0%Z l.
Lemma sg_app {X} f (l l' : list X) : sg f (l ++ l') = (sg f l + sg f l')%Z.
Proof. induction l as [|x l IH]; simpl; [reflexivity|]. rewrite IH. lia. Qed.
Lemma sg_perm {X} f (l l' : list X) : l ≡ₚ l' -> sg f l = sg f l'.
Proof. induction 1; simpl; lia. Qed.
Lemma sg_fmap {X Y} f (g : X -> Y) l : sg f (g <$> l) = sg (fun x => f (g x)) l.
Proof. induction l as [|x l IH]; [reflexivity|]. rewrite fmap_cons. simpl. rewrite IH. reflexivity. Qed.
Lemma sg_mjoin {X Y} f (g : X -> list Y) l : sg f (mjoin (g <$> l)) = sg (fun x => sg f (g x)) l.
Proof. induction l as [|x l IH]; [reflexivity|]. rewrite fmap_cons. cbn [mjoin list_join]. rewrite sg_app. simpl. f_equal. exact IH. Qed.
Lemma sg_filter {X} (P : X -> Prop) `{!forall x, Decision (P x)} f l : sg f (filter P l) = sg (fun x => if decide (P x) then f x else 0%Z) l.
Proof. induction l as [|x l IH]; [reflexivity|]. rewrite filter_cons. simpl. destruct (decide (P x)); simpl; rewrite IH; reflexivity. Qed.
Lemma sg_prod {X Y} (f : X * Y -> Z) l l' : sg f (list_prod l l') = sg (fun x => sg (fun y => f (x, y)) l') l.
Proof.
  induction l as [|x l IH]; [reflexivity|]. cbn [list_prod]. rewrite sg_app, IH. simpl. f_equal.
  exact (sg_fmap f (pair x) l').
Qed.
Lemma sg_ext {X} f g (l : list X) : (forall x, x ∈ l -> f x = g x) -> sg f l = sg g l.
Proof. induction l as [|x l IH]; intros H; [reflexivity|]. simpl. rewrite (H x) by left. rewrite IH; [reflexivity|]. intros y Hy. apply H. right. exact Hy. Qed.
Lemma sg_mod {X} f g (l : list X) : (forall x, x ∈ l -> f x mod M64 = g x mod M64)%Z -> (sg f l mod M64 = sg g l mod M64)%Z.
Proof.
  induction l as [|x l IH]; intros H; [reflexivity|]. simpl. rewrite Zplus_mod, (H x) by left. rewrite IH by (intros y Hy; apply H; right; exact Hy).
  rewrite <- Zplus_mod. reflexivity.
Qed.
Lemma sg_zero {X} f (l : list X) : (forall x, x ∈ l -> f x = 0%Z) -> sg f l = 0%Z.
Proof. intros H. rewrite (sg_ext f (fun _ => 0%Z)) by exact H. clear H. induction l as [|x l IH]; [reflexivity|]. simpl. exact IH. Qed.
Lemma sg_cons {X} f (x : X) l : sg f (x :: l) = (f x + sg f l)%Z.
Proof. reflexivity. Qed.
Lemma sg_swap {X Y} (f : X -> Y -> Z) l l' : sg (fun x => sg (f x) l') l = sg (fun y => sg (fun x => f x y) l) l'.
Proof.
  induction l as [|x l IH]; [symmetry; apply sg_zero; reflexivity|]. rewrite sg_cons, IH. clear IH. induction l' as [|y l' IH]; [reflexivity|]. rewrite !(sg_cons _ y), <- IH. cbn beta. rewrite sg_cons. lia.
Qed.
(** One term is left. *)
Lemma sg_pick {X Y} `{EqDecision Y} (key : X -> Y) (y : Y) (v : Z) l : NoDup (key <$> l) ->
  sg (fun x => if decide (y = key x) then v else 0%Z) l = if decide (y ∈ key <$> l) then v else 0%Z.
Proof.
  induction l as [|x l IH]; intros Hn; [reflexivity|]. rewrite fmap_cons in Hn. apply NoDup_cons in Hn as [Hx Hn]. rewrite sg_cons, IH by exact Hn. clear IH.
  destruct (decide (y = key x)) as [->|Hne].
  - destruct (decide (key x ∈ key <$> l)) as [|_]; [contradiction|]. destruct (decide (key x ∈ key <$> x :: l)) as [_|H]; [lia|]. destruct H. rewrite fmap_cons. left.
  - destruct (decide (y ∈ key <$> l)) as [H|H], (decide (y ∈ key <$> x :: l)) as [H'|H']; [lia| | |lia].
    + destruct H'. rewrite fmap_cons. right. exact H.
    + rewrite fmap_cons in H'. apply elem_of_cons in H' as [H'|H']; contradiction.
Qed.
Lemma sg_one (i : nat) (f : nat -> Z) n : (n <= i -> f i = 0%Z) -> sg (fun x => if decide (x = i) then f x else 0%Z) (seq 0 n) = f i.
Proof.
  intros H. rewrite (sg_ext _ (fun x => if decide (i = id x) then f i else 0%Z)).
  - rewrite (sg_pick (fun x : nat => x) i (f i)) by (rewrite list_fmap_id; apply NoDup_seq). rewrite list_fmap_id.
    destruct (decide (i ∈ seq 0 n)) as [|Hn]; [reflexivity|]. symmetry. apply H. rewrite elem_of_seq in Hn. lia.
  - intros x _. unfold id. destruct (decide (x = i)), (decide (i = x)); congruence.
Qed.
Lemma zsum_sg l : foldr Z.add 0%Z l = sg id l.
Proof. reflexivity. Qed.

(** ** Products *)
Lemma sg_products ra (rb : nat -> list (nat * Z)) j :
  sg id (products mul64 ra rb j) = sg (fun ka => sg (fun cb => if decide (fst cb = j) then mul64 (snd ka) (snd cb) else 0%Z) (rb (fst ka))) ra.
Proof.
  unfold products. rewrite sg_mjoin. apply sg_ext. intros ka _. rewrite sg_fmap, sg_filter. reflexivity.
Qed.
Lemma sum1_mod ps v : sum1 add64 ps = Some v -> (v mod M64 = sg id ps mod M64)%Z.
Proof.
  destruct ps as [|x xs]; [discriminate|]. cbn [sum1]. intros [= <-]. revert x. induction xs as [|y xs IH]; intros x.
  - simpl. unfold id. f_equal. lia.
  - cbn [fold_left]. rewrite IH. simpl. unfold id, add64. rewrite Zplus_mod, Z.mod_mod, <- Zplus_mod by lia. f_equal. lia.
Qed.

Section Comp.
Context (T C : csr Z) (n : nat).
Context (HT : wf T) (Hr : rows T = n) (Hc : cols T = n) (HC : wf C) (HrC : rows C = n).
Context (HX : forall i, i < n -> is_compl_row mul64 add64 T T T i (row_entries C i)).
Local Notation TT := (triples T).

Lemma triples_elem (X : csr Z) i j v : (i, j, v) ∈ triples X <-> i < rows X /\ (j, v) ∈ row_entries X i.
Proof.
  unfold triples. rewrite elem_of_list_join. split.
  - intros (l & H1 & H2). apply elem_of_list_fmap in H2 as (i' & -> & H2). apply elem_of_list_fmap in H1 as ([j' v'] & E & H1). apply elem_of_seq in H2.
    cbn [fst snd] in E. injection E as -> -> ->. split; [lia|exact H1].
  - intros [H1 H2]. eexists. split; [|apply elem_of_list_fmap; exists i; split; [reflexivity|apply elem_of_seq; lia]]. apply elem_of_list_fmap. exists (j, v). auto.
Qed.
Lemma sg_triples f (X : csr Z) : sg f (triples X) = sg (fun i => sg (fun e => f (i, fst e, snd e)) (row_entries X i)) (seq 0 (rows X)).
Proof. unfold triples. rewrite sg_mjoin. apply sg_ext. intros i _. rewrite sg_fmap. reflexivity. Qed.
Lemma range i j v : (j, v) ∈ row_entries T i -> j < n.
Proof.
  intros H. rewrite <- Hc. eapply (row_cols_range T i); [exact HT|]. unfold row_cols. apply elem_of_list_fmap. exists (j, v). auto.
Qed.
(** Positions of the result. *)
Lemma pos_C i j : (i, j) ∈ fst <$> triples C <-> i < n /\ j ∉ row_cols T i /\ exists k a b, (k, a) ∈ row_entries T i /\ (j, b) ∈ row_entries T k.
Proof.
  rewrite elem_of_list_fmap. split.
  - intros ([[i' j'] v] & [= <- <-] & H). apply triples_elem in H as [Hi H]. rewrite HrC in Hi. split; [exact Hi|]. apply (HX i Hi) in H as [H1 H2]. split; [exact H1|].
    unfold prod_entry, entry in H2. destruct (products mul64 (row_entries T i) (row_entries T) j) as [|x xs] eqn:E; [discriminate|].
    assert (Hx : x ∈ products mul64 (row_entries T i) (row_entries T) j) by (rewrite E; left). unfold products in Hx.
    apply elem_of_list_join in Hx as (l & Hx & Hl). apply elem_of_list_fmap in Hl as ([k a] & -> & Hl). apply elem_of_list_fmap in Hx as ([c b] & -> & Hx).
    apply elem_of_list_filter in Hx as [E1 Hx]. cbn [fst snd] in *. subst c. eauto.
  - intros (Hi & Hn & k & a & b & H1 & H2). destruct (prod_entry mul64 add64 T T i j) as [v|] eqn:E.
    + exists (i, j, v). split; [reflexivity|]. apply triples_elem. rewrite HrC. split; [exact Hi|]. apply (HX i Hi). auto.
    + exfalso. unfold prod_entry, entry in E. destruct (products mul64 (row_entries T i) (row_entries T) j) eqn:E'; [|discriminate].
      assert (Hx : mul64 a b ∈ products mul64 (row_entries T i) (row_entries T) j); [|rewrite E' in Hx; inversion Hx].
      unfold products. apply elem_of_list_join. eexists. split; [|apply elem_of_list_fmap; exists (k, a); split; [reflexivity|exact H1]].
      apply elem_of_list_fmap. exists (j, b). split; [reflexivity|]. apply elem_of_list_filter. auto.
Qed.
Lemma nodup_C : NoDup (fst <$> triples C).
Proof.
  unfold triples. rewrite ConvProofs.mjoin_fmap. rewrite <- list_fmap_compose. apply NoDup_mjoin.
  - apply NoDup_seq.
  - intros i Hi. apply elem_of_seq in Hi. simpl. rewrite <- list_fmap_compose. unfold compose. cbn [fst].
    assert (E : (fun x : nat * Z => (i, x.1)) <$> row_entries C i = pair i <$> (fst <$> row_entries C i)) by (rewrite <- list_fmap_compose; reflexivity).
    rewrite E. apply NoDup_fmap; [intros x y [= ->]; reflexivity|]. apply (HX i). lia.
  - intros i i' x _ _ H1 H2. simpl in *. apply elem_of_list_fmap in H1 as (? & -> & H1). apply elem_of_list_fmap in H2 as (? & E & H2).
    apply elem_of_list_fmap in H1 as (? & -> & _). apply elem_of_list_fmap in H2 as (? & -> & _). cbn in E. congruence.
Qed.
(** A value of the result. *)
Lemma val_C i j v : (i, j, v) ∈ triples C ->
  (v mod M64 = sg (fun p => if decide (snd (fst (fst p)) = fst (fst (snd p)) /\ step_pos p = (i, j)) then step_val p else 0%Z) (list_prod TT TT) mod M64)%Z.
Proof.
  intros H. apply triples_elem in H as [Hi H]. rewrite HrC in Hi. apply (HX i Hi) in H as [_ H]. rewrite (sum1_mod _ _ H), sg_products, sg_prod, sg_triples.
  rewrite (sg_ext (fun x => sg _ _) (fun i' => if decide (i' = i) then sg (fun ka => sg (fun y => if decide (snd (i', fst ka) = fst (fst y) /\ (i', snd (fst y)) = (i, j)) then (snd ka * snd y)%Z else 0%Z) TT) (row_entries T i') else 0%Z)).
  2:{ intros i' _. unfold step_pos, step_val. cbn [fst snd]. destruct (decide (i' = i)) as [->|Hne]; [reflexivity|]. apply sg_zero. intros ka _. apply sg_zero. intros y _.
      destruct (decide (_ /\ _)) as [[_ [= E _]]|]; congruence. }
  rewrite (sg_one i (fun i' => sg (fun ka => sg (fun y => if decide (snd (i', fst ka) = fst (fst y) /\ (i', snd (fst y)) = (i, j)) then (snd ka * snd y)%Z else 0%Z) TT) (row_entries T i')) (rows T)) by lia.
  apply sg_mod. intros [k a] Hk. cbn [fst snd]. pose proof (range _ _ _ Hk) as Hkn. rewrite sg_triples.
  rewrite (sg_ext (fun x => sg _ (row_entries T x)) (fun k' => if decide (k' = k) then sg (fun cb => if decide (fst cb = j) then (a * snd cb)%Z else 0%Z) (row_entries T k') else 0%Z)).
  2:{ intros k' _. cbn [fst snd]. destruct (decide (k' = k)) as [->|Hne].
      - apply sg_ext. intros [c b] _. cbn [fst snd]. destruct (decide (k = k /\ (i, c) = (i, j))) as [[_ E]|Hne], (decide (c = j)); try congruence. destruct Hne. split; congruence.
      - apply sg_zero. intros e _. destruct (decide (_ /\ _)) as [[E _]|]; congruence. }
  rewrite (sg_one k (fun k' => sg (fun cb => if decide (fst cb = j) then (a * snd cb)%Z else 0%Z) (row_entries T k')) (rows T)) by lia.
  apply sg_mod. intros [c b] _. cbn [fst snd]. destruct (decide (c = j)); [|reflexivity]. unfold mul64. apply Z.mod_mod. lia.
Qed.
(** The sum of the result. *)
Lemma sum_C : (sg snd (triples C) mod M64 =
  sg (fun p => if decide (snd (fst (fst p)) = fst (fst (snd p)) /\ step_pos p ∉ fst <$> TT) then step_val p else 0%Z) (list_prod TT TT) mod M64)%Z.
Proof.
  rewrite (sg_mod snd (fun t => sg (fun p => if decide (snd (fst (fst p)) = fst (fst (snd p)) /\ step_pos p = fst t) then step_val p else 0%Z) (list_prod TT TT))).
  2:{ intros [[i j] v] H. apply val_C, H. }
  rewrite sg_swap. f_equal. apply sg_ext. intros [[[i k] a] [[k' j] b]] Hp. cbn [fst snd]. unfold step_pos. cbn [fst snd].
  apply elem_of_list_In, in_prod_iff in Hp as [H1 H2]. apply elem_of_list_In in H1, H2. apply triples_elem in H1 as [Hi H1], H2 as [Hk H2].
  destruct (decide (k = k')) as [->|Hne].
  - rewrite (sg_ext _ (fun t => if decide ((i, j) = fst t) then step_val ((i, k', a), (k', j, b)) else 0%Z)).
    2:{ intros t _. destruct (decide (k' = k' /\ (i, j) = fst t)) as [[_ E]|N], (decide ((i, j) = fst t)); try reflexivity; [contradiction|]. destruct N. auto. }
    rewrite (sg_pick (fst : nat * nat * Z -> nat * nat) (i, j) _ (triples C) nodup_C).
    assert (Hiff : (i, j) ∈ fst <$> triples C <-> (i, j) ∉ fst <$> TT).
    { rewrite pos_C. split.
      - intros (_ & Hn & _) Hin. apply elem_of_list_fmap in Hin as ([[? ?] v] & [= <- <-] & Hin). apply triples_elem in Hin as [_ Hin]. apply Hn. apply elem_of_list_fmap. exists (j, v). auto.
      - intros Hn. split; [lia|]. split; [|eauto 10]. intros Hin. apply Hn. apply elem_of_list_fmap in Hin as ([? v] & [= <-] & Hin). apply elem_of_list_fmap. exists (i, j, v). split; [reflexivity|]. apply triples_elem. auto. }
    destruct (decide ((i, j) ∈ fst <$> triples C)) as [H|H], (decide (k' = k' /\ (i, j) ∉ fst <$> TT)) as [[_ H']|H']; try reflexivity.
    + destruct H'. split; [reflexivity|]. apply Hiff, H.
    + destruct H. apply Hiff, H'.
  - rewrite sg_zero; [destruct (decide (k = k' /\ _)) as [[? _]|]; [contradiction|reflexivity]|].
    intros t _. destruct (decide (k = k' /\ _)) as [[? _]|]; [contradiction|reflexivity].
Qed.

(** In terms of the entries [E] of a file. *)
Context (E : list (nat * nat * Z)).
Context (HE : (fun e => (fst e, (snd e mod M64)%Z)) <$> E ≡ₚ TT).
Lemma pos_E x : x ∈ fst <$> TT <-> x ∈ epos <$> E.
Proof. rewrite <- HE. rewrite <- list_fmap_compose. reflexivity. Qed.
Lemma comp_sum : (sg snd (triples C) mod M64 = step_sum E mod M64)%Z.
Proof.
  rewrite sum_C. unfold step_sum, two_steps. rewrite zsum_sg, sg_fmap, sg_filter, !sg_prod.
  rewrite <- (sg_perm _ _ _ HE), sg_fmap. apply sg_mod. intros [[i k] a] _. rewrite <- (sg_perm _ _ _ HE), sg_fmap. apply sg_mod. intros [[k' j] b] _.
  unfold step_pos, step_val, id. cbn [fst snd].
  assert (Em : (((a mod M64) * (b mod M64)) mod M64 = (a * b) mod M64)%Z) by (symmetry; apply Zmult_mod).
  destruct (decide (k = k' /\ (i, j) ∉ fst <$> TT)) as [[Ek H]|H], (decide (k = k' /\ (i, j) ∉ epos <$> E)) as [[Ek' H']|H']; try reflexivity.
  - exact Em.
  - destruct H'. split; [exact Ek|]. rewrite <- pos_E. exact H.
  - destruct H. split; [exact Ek'|]. rewrite pos_E. exact H'.
Qed.
(** Its number of entries. *)
Lemma comp_count_pos : NoDup (fst <$> triples C) /\ (forall x, x ∈ fst <$> triples C <-> x ∈ step_pos <$> two_steps E) /\ length (fst <$> triples C) = nnz C.
Proof.
  split; [exact nodup_C|]. split; [|rewrite fmap_length; apply triples_length, HC].
  assert (Hin : forall i k, (exists a, (i, k, a) ∈ TT) <-> exists a, (i, k, a) ∈ E).
  { intros i k. assert (H : forall L : list (nat * nat * Z), (exists a, (i, k, a) ∈ L) <-> (i, k) ∈ fst <$> L).
    { intros L. rewrite elem_of_list_fmap. split; [intros [a Ha]; exists (i, k, a); auto|intros ([[? ?] a] & [= <- <-] & Ha); eauto]. }
    rewrite H, (H E). exact (pos_E (i, k)). }
  intros [i j]. rewrite pos_C, elem_of_list_fmap. split.
  - intros (Hi & Hn & k & a & b & H1 & H2). pose proof (range _ _ _ H1) as Hk.
    destruct (proj1 (Hin i k)) as [a' Ha]; [exists a; apply triples_elem; split; [lia|exact H1]|].
    destruct (proj1 (Hin k j)) as [b' Hb]; [exists b; apply triples_elem; split; [lia|exact H2]|].
    exists ((i, k, a'), (k, j, b')). split; [reflexivity|]. unfold two_steps. apply elem_of_list_filter. split; [|apply elem_of_list_In, in_prod_iff; rewrite <- !elem_of_list_In; auto].
    split; [reflexivity|]. unfold step_pos. cbn [fst snd]. rewrite <- pos_E. intros Hx. apply elem_of_list_fmap in Hx as ([[? ?] v] & [= <- <-] & Hx).
    apply triples_elem in Hx as [_ Hx]. apply Hn. apply elem_of_list_fmap. exists (j, v). auto.
  - intros ([[[i' k] a'] [[k' j'] b']] & Ep & Hp). unfold step_pos in Ep. cbn [fst snd] in Ep. injection Ep as -> ->. unfold two_steps in Hp.
    apply elem_of_list_filter in Hp as [[Ek Hn] Hp]. unfold step_pos in Hn. cbn [fst snd] in Ek, Hn. subst k'. apply elem_of_list_In, in_prod_iff in Hp as [H1 H2]. apply elem_of_list_In in H1, H2.
    destruct (proj2 (Hin i' k)) as [a Ha]; [eauto|]. destruct (proj2 (Hin k j')) as [b Hb]; [eauto|].
    apply triples_elem in Ha as [Hi Ha], Hb as [_ Hb]. split; [lia|]. split; [|eauto]. intros Hx. apply Hn. rewrite <- pos_E. apply elem_of_list_fmap in Hx as ([? v] & [= <-] & Hx).
    apply elem_of_list_fmap. exists (i', j', v). split; [reflexivity|]. apply triples_elem. split; [lia|exact Hx].
Qed.
Lemma comp_count : positions_count E (nnz C).
Proof. eexists. exact comp_count_pos. Qed.
(** Its values. *)
Lemma sum1_range ps v : (forall x, x ∈ ps -> 0 <= x < M64)%Z -> sum1 add64 ps = Some v -> (v mod M64 = v)%Z.
Proof.
  destruct ps as [|x xs]; [discriminate|]. intros Hx. cbn [sum1]. intros [= <-]. assert (H0 : (0 <= x < M64)%Z) by (apply Hx; left). clear Hx. revert x H0.
  induction xs as [|y xs IH]; intros x H0; [apply Z.mod_small, H0|]. cbn [fold_left]. apply IH. unfold add64. apply Z.mod_pos_bound. lia.
Qed.
Lemma products_range ra (rb : nat -> list (nat * Z)) j x : x ∈ products mul64 ra rb j -> (0 <= x < M64)%Z.
Proof.
  unfold products. intros H. apply elem_of_list_join in H as (l & Hx & Hl). apply elem_of_list_fmap in Hl as (ka & -> & _). apply elem_of_list_fmap in Hx as (cb & -> & _).
  unfold mul64. apply Z.mod_pos_bound. lia.
Qed.
Lemma comp_entry i j v : (i < n /\ (j, v) ∈ row_entries C i) <-> ((i, j) ∈ step_pos <$> two_steps E /\ v = (step_at E i j mod M64)%Z).
Proof.
  assert (Hval : forall v, i < n -> (j, v) ∈ row_entries C i -> v = (step_at E i j mod M64)%Z).
  { intros w Hi Hw. assert (Ht : (i, j, w) ∈ triples C) by (apply triples_elem; split; [lia|exact Hw]).
    apply (HX i Hi) in Hw as [Hnm Hw]. rewrite <- (sum1_range _ _ (fun x => products_range _ _ _ x) Hw). rewrite (val_C i j w Ht).
    unfold step_at, two_steps. rewrite zsum_sg, sg_fmap, !sg_filter, !sg_prod.
    rewrite <- (sg_perm _ _ _ HE), sg_fmap. apply sg_mod. intros [[i1 k1] a] _. rewrite <- (sg_perm _ _ _ HE), sg_fmap. apply sg_mod. intros [[k2 j2] b] _.
    unfold step_pos, step_val, id. cbn [fst snd].
    assert (Em : (((a mod M64) * (b mod M64)) mod M64 = (a * b) mod M64)%Z) by (symmetry; apply Zmult_mod).
    assert (Hno : (i, j) ∉ epos <$> E).
    { rewrite <- pos_E. intros Hx. apply elem_of_list_fmap in Hx as ([[? ?] x] & [= <- <-] & Hx). apply triples_elem in Hx as [_ Hx]. apply Hnm. apply elem_of_list_fmap. exists (j, x). auto. }
    destruct (decide (k1 = k2 /\ (i1, j2) = (i, j))) as [[Ek Ep]|H], (decide (k1 = k2 /\ (i1, j2) ∉ epos <$> E)) as [[Ek' H']|H'];
      destruct (decide ((i1, j2) = (i, j))) as [Ep'|Ep']; try reflexivity; try contradiction.
    - exact Em.
    - destruct H'. split; [exact Ek|]. rewrite Ep. exact Hno.
    - destruct H. auto. }
  assert (Hpos : (i, j) ∈ fst <$> triples C <-> (i, j) ∈ step_pos <$> two_steps E) by exact (proj1 (proj2 comp_count_pos) (i, j)).
  split.
  - intros [Hi Hv]. split; [|apply Hval; assumption]. apply Hpos. apply elem_of_list_fmap. exists (i, j, v). split; [reflexivity|]. apply triples_elem. split; [lia|exact Hv].
  - intros [Hp ->]. apply Hpos in Hp. apply elem_of_list_fmap in Hp as ([[? ?] w] & [= <- <-] & Hp). apply triples_elem in Hp as [Hi Hw]. rewrite HrC in Hi.
    split; [exact Hi|]. rewrite <- (Hval w Hi Hw). exact Hw.
Qed.
End Comp.
