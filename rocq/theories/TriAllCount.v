(** The sum of the masked product of the renumbered triangle is the number of triangles. *)
From Coq Require Import NArith ZArith.
From stdpp Require Import numbers list_numbers.
From Verif Require Import BaseProofs McaProofs DriverStatements Assemble MatSpec MatStatements GraphSpec GraphModel GraphProofs GraphCalls TriProofs
  IndexModel PropIndex TriAllModel TriAllSpec TriAllProofs TriAllCalls.
From Verif Require Import Base Spec.
Local Open Scope nat_scope.

Local Notation M64 := (2 ^ 64)%Z.
Definition allOnes (T : csr Z) : Prop := forall i e, e ∈ row_entries T i -> snd e = 1%Z.

Lemma fold64 xs a : fold_left add64 xs (a mod M64)%Z = (fold_left Z.add xs a mod M64)%Z.
Proof. revert a. induction xs as [|x xs IH]; intros a; [reflexivity|]. cbn [fold_left]. unfold add64 at 2. rewrite Z.add_mod_idemp_l by lia. apply IH. Qed.
Lemma spec64 (T : csr Z) i : allOnes T ->
  spec_row mul64 add64 T T T i = (fun e => (fst e, (snd e mod M64)%Z)) <$> spec_row fOne Z.add T T T i.
Proof.
  intros H1. unfold spec_row, masked_row.
  assert (E : forall j, products mul64 (row_entries T i) (row_entries T) j = products fOne (row_entries T i) (row_entries T) j /\
    Forall (fun v => v = 1%Z) (products fOne (row_entries T i) (row_entries T) j)).
  { intros j. unfold products. pose proof (H1 i) as Hi. induction (row_entries T i) as [|ka l IH]; [split; constructor|].
    rewrite !fmap_cons, !mjoin_cons. destruct IH as [-> IH2]; [intros e He; apply Hi; right; exact He|]. split.
    - f_equal. apply list_fmap_ext. intros k cb Hcb. assert (Hin : cb ∈ row_entries T (fst ka)).
      { apply elem_of_list_lookup_2 in Hcb. apply elem_of_list_filter in Hcb. apply Hcb. }
      rewrite (H1 _ _ Hin), (Hi ka) by left. reflexivity.
    - apply Forall_app. split; [|exact IH2]. apply Forall_fmap, Forall_forall. intros; reflexivity. }
  induction (row_cols T i) as [|j l IH]; [reflexivity|]. cbn [omap list_omap]. unfold entry. destruct (E j) as [-> Hf].
  destruct (products fOne (row_entries T i) (row_entries T) j) as [|x xs]; [exact IH|]. cbn [sum1 fmap option_fmap option_map]. rewrite fmap_cons. f_equal; [|exact IH].
  cbn [fst snd]. f_equal. inversion Hf; subst. change 1%Z with (1 mod M64)%Z at 1. apply fold64.
Qed.

Lemma zsum_perm l l' : l ≡ₚ l' -> zsum l = zsum l'.
Proof. unfold zsum. induction 1; simpl; lia. Qed.
Lemma zsum_mod (l : list (nat * Z)) : (zsum (snd <$> ((fun e => (fst e, (snd e mod M64)%Z)) <$> l)) mod M64 = zsum (snd <$> l) mod M64)%Z.
Proof.
  induction l as [|e l IH]; [reflexivity|]. rewrite !fmap_cons. unfold zsum in *. cbn [foldr snd]. rewrite Z.add_mod_idemp_l by lia.
  rewrite <- (Z.add_mod_idemp_r (snd e)) by lia. rewrite IH. rewrite Z.add_mod_idemp_r by lia. reflexivity.
Qed.
Lemma rows_sum64 (f : nat -> list (nat * Z)) (g : nat -> list (nat * nat * nat)) l :
  (forall i, i ∈ l -> (zsum (snd <$> f i) mod M64 = Z.of_nat (length (g i)) mod M64)%Z) ->
  (zsum (snd <$> mjoin (f <$> l)) mod M64 = Z.of_nat (length (mjoin (g <$> l))) mod M64)%Z.
Proof.
  induction l as [|i l IH]; intros H; [reflexivity|]. rewrite !fmap_cons, !mjoin_cons, fmap_app, zsum_app, app_length, Nat2Z.inj_add.
  rewrite Zplus_mod, (H i) by left. rewrite IH by (intros j Hj; apply H; right; exact Hj). rewrite <- Zplus_mod. reflexivity.
Qed.
(** The sum of the product. *)
Lemma sum64 n T C : good n T -> allOnes T -> isProduct64 T C ->
  forall r, sumall_result 0%Z (stepInt 64) (plusInt 64) (values C) (nnz C) r <-> r = (Z.of_nat (length (tris T)) mod M64)%Z.
Proof.
  intros HG H1 (Hw & Hr & Hc & Hrow) r. rewrite C32_sumall by (rewrite (wf_values C Hw); lia).
  rewrite take_ge by (rewrite (wf_values C Hw); lia). change (fold_right Z.add 0%Z) with zsum. change (2 ^ Z.of_N 64)%Z with M64.
  enough (E : (zsum (values C) mod M64 = Z.of_nat (length (tris T)) mod M64)%Z) by (rewrite E; reflexivity).
  pose proof HG as (_ & _ & HrL & _). unfold tris. rewrite (wf_assemble C Hw). unfold assemble. cbn [values]. unfold rowsOf. rewrite Nat.sub_0_r, Hr.
  apply rows_sum64. intros i Hi. apply elem_of_seq in Hi. assert (Hi' : i < rows T) by (rewrite HrL in *; lia).
  rewrite (zsum_perm _ (snd <$> spec_row mul64 add64 T T T i)) by (apply fmap_Permutation, Hrow, Hi').
  rewrite spec64 by exact H1. rewrite zsum_mod. rewrite (row_sum n T i HG) by (rewrite <- HrL; exact Hi'). reflexivity.
Qed.

(** ** Triangles under a renumbering *)
Definition s3 (t : nat * nat * nat) : nat * nat * nat :=
  let '(a, b, c) := t in
  let '(x, y) := if a <? b then (a, b) else (b, a) in
  if c <? x then (c, x, y) else if c <? y then (x, c, y) else (x, y, c).
Lemma s3_cases a b c x y z : a <> b -> b <> c -> a <> c -> s3 (a, b, c) = (x, y, z) ->
  x < y /\ y < z /\
  ((a = x /\ b = y /\ c = z) \/ (a = x /\ c = y /\ b = z) \/ (b = x /\ a = y /\ c = z) \/ (b = x /\ c = y /\ a = z) \/ (c = x /\ a = y /\ b = z) \/ (c = x /\ b = y /\ a = z)).
Proof.
  intros H1 H2 H3. unfold s3. destruct (Nat.ltb_spec a b).
  - destruct (Nat.ltb_spec c a); [|destruct (Nat.ltb_spec c b)]; intros [= -> -> ->]; (split; [lia|]; split; [lia|tauto]).
  - destruct (Nat.ltb_spec c b); [|destruct (Nat.ltb_spec c a)]; intros [= -> -> ->]; (split; [lia|]; split; [lia|tauto]).
Qed.
Lemma s3_perm a b c x y z : x < y -> y < z ->
  ((a = x /\ b = y /\ c = z) \/ (a = x /\ c = y /\ b = z) \/ (b = x /\ a = y /\ c = z) \/ (b = x /\ c = y /\ a = z) \/ (c = x /\ a = y /\ b = z) \/ (c = x /\ b = y /\ a = z)) ->
  s3 (a, b, c) = (x, y, z).
Proof.
  intros H1 H2 H. unfold s3.
  destruct H as [(->&->&->)|[(->&->&->)|[(->&->&->)|[(->&->&->)|[(->&->&->)|(->&->&->)]]]]];
    repeat (match goal with |- context [?u <? ?v] => destruct (Nat.ltb_spec u v); try lia end); reflexivity.
Qed.

Section Bij.
Context {V : Type} (A : csc V) (n : nat) (p : nat -> nat) (T : csr Z).
Hypothesis Hw : wf_csc A.
Hypothesis Hr : c_rows A = n.
Hypothesis Hc : c_cols A = n.
Hypothesis Hp : permutes n p.
Hypothesis HG : good n T.
Hypothesis HE : forall i j, edge T i j <-> j < i /\ exists a b, joined A a b /\ i = p a /\ j = p b.
Lemma joined_sym i j : joined A i j -> joined A j i.
Proof. intros [H1 H2]. split; [congruence|tauto]. Qed.
Lemma joined_neq i j : joined A i j -> p i <> p j /\ i < n /\ j < n.
Proof. intros H. destruct (joined_range A n i j Hw Hr Hc H) as [Hi Hj]. split; [|auto]. intros E. apply (proj1 H). apply Hp; auto. Qed.
Lemma edge_of a b : joined A a b -> p b < p a -> edge T (p a) (p b).
Proof. intros H Hlt. apply HE. split; [exact Hlt|]. eauto. Qed.
Definition img (t : nat * nat * nat) : nat * nat * nat := s3 (p (fst (fst t)), p (snd (fst t)), p (snd t)).
Lemma img_tris ts : triangles A ts -> img <$> ts ≡ₚ tris T.
Proof.
  intros [Hnd Hts]. apply NoDup_Permutation.
  - assert (Hinj : forall s t, s ∈ ts -> t ∈ ts -> img s = img t -> s = t).
    { intros [[a b] c] [[a' b'] c'] Hs Ht E. apply Hts in Hs as (H1 & H2 & J1 & J2 & J3). apply Hts in Ht as (H1' & H2' & J1' & J2' & J3').
      destruct (joined_neq _ _ J1) as (N1 & Ra & Rb), (joined_neq _ _ J2) as (N2 & _ & Rc), (joined_neq _ _ J3) as (N3 & _ & _).
      destruct (joined_neq _ _ J1') as (N1' & Ra' & Rb'), (joined_neq _ _ J2') as (N2' & _ & Rc'), (joined_neq _ _ J3') as (N3' & _ & _).
      unfold img in E. cbn [fst snd] in E. destruct (s3 (p a', p b', p c')) as [[x y] z] eqn:E'.
      apply s3_cases in E as (_ & _ & E); [|assumption..]. apply s3_cases in E' as (_ & _ & E'); [|assumption..].
      assert (K : (p a = p a' \/ p a = p b' \/ p a = p c') /\ (p b = p a' \/ p b = p b' \/ p b = p c') /\ (p c = p a' \/ p c = p b' \/ p c = p c')).
      { clear -E E'. destruct E as [(->&->&->)|[(->&->&->)|[(->&->&->)|[(->&->&->)|[(->&->&->)|(->&->&->)]]]]]; 
          destruct E' as [(->&->&->)|[(->&->&->)|[(->&->&->)|[(->&->&->)|[(->&->&->)|(->&->&->)]]]]]; auto 10. }
      destruct Hp as [_ Hi]. destruct K as (Ka & Kb & Kc).
      assert (a = a' \/ a = b' \/ a = c') by (destruct Ka as [K|[K|K]]; apply Hi in K; auto).
      assert (b = a' \/ b = b' \/ b = c') by (destruct Kb as [K|[K|K]]; apply Hi in K; auto).
      assert (c = a' \/ c = b' \/ c = c') by (destruct Kc as [K|[K|K]]; apply Hi in K; auto).
      clear E E' Ka Kb Kc N1 N2 N3 N1' N2' N3'. assert (a = a' /\ b = b' /\ c = c') as (-> & -> & ->) by lia. reflexivity. }
    clear Hts. induction Hnd as [|t ts Ht Hnd IH]; [constructor|]. rewrite fmap_cons. constructor.
    + intros Hin. apply elem_of_list_fmap in Hin as (t' & E & Hin). apply Ht. rewrite (Hinj t t'); [exact Hin|left|right; exact Hin|exact E].
    + apply IH. intros s t' Hs Ht'. apply Hinj; right; assumption.
  - apply (tris_nodup n), HG.
  - intros [[x y] z]. rewrite (tris_elem n T x y z HG), elem_of_list_fmap. split.
    + intros ([[a b] c] & E & Hin). apply Hts in Hin as (H1 & H2 & J1 & J2 & J3).
      destruct (joined_neq _ _ J1) as (N1 & Ra & Rb), (joined_neq _ _ J2) as (N2 & _ & Rc), (joined_neq _ _ J3) as (N3 & _ & _).
      unfold img in E. cbn [fst snd] in E. symmetry in E. apply s3_cases in E as (L1 & L2 & E); [|assumption..].
      pose proof (joined_sym _ _ J1) as J1s. pose proof (joined_sym _ _ J2) as J2s. pose proof (joined_sym _ _ J3) as J3s.
      destruct E as [(E1&E2&E3)|[(E1&E2&E3)|[(E1&E2&E3)|[(E1&E2&E3)|[(E1&E2&E3)|(E1&E2&E3)]]]]]; rewrite <- E1, <- E2, <- E3 in *;
        (split; [|split]; apply edge_of; assumption || lia).
    + rewrite !HE. intros ((L1 & c & a & J3 & E1 & E2) & (L2 & c' & b & J2 & E3 & E4) & (L3 & b' & a' & J1 & E5 & E6)).
      destruct (joined_neq _ _ J1) as (N1 & Rb' & Ra'), (joined_neq _ _ J2) as (N2 & Rc' & Rb), (joined_neq _ _ J3) as (N3 & Rc & Ra).
      assert (c' = c) by (apply Hp; congruence || lia). assert (b' = b) by (apply Hp; congruence || lia). assert (a' = a) by (apply Hp; congruence || lia). subst c' b' a'.
      assert (Nab : a <> b) by (intros ->; congruence). assert (Nbc : b <> c) by (intros ->; congruence). assert (Nac : a <> c) by (intros ->; congruence).
      pose proof (joined_sym _ _ J1) as J1s. pose proof (joined_sym _ _ J2) as J2s. pose proof (joined_sym _ _ J3) as J3s.
      destruct (s3 (a, b, c)) as [[u v] w] eqn:E. apply s3_cases in E as (K1 & K2 & E); [|assumption..]. exists (u, v, w). unfold img. cbn [fst snd].
      split.
      * symmetry. apply s3_perm; [congruence || lia|congruence || lia|].
        destruct E as [(->&->&->)|[(->&->&->)|[(->&->&->)|[(->&->&->)|[(->&->&->)|(->&->&->)]]]]]; rewrite E1, E2, E4; lia.
      * apply Hts. split; [exact K1|]. split; [exact K2|].
        destruct E as [(->&->&->)|[(->&->&->)|[(->&->&->)|[(->&->&->)|[(->&->&->)|(->&->&->)]]]]]; auto.
Qed.
End Bij.

(** The row form of the new matrix. *)
Lemma lower_csr {V} (zero one : V) (A L : csc V) n p : wf_csc L -> c_rows L = n -> c_cols L = n -> sorted_cols L ->
  (forall i j v, (i, v) ∈ col_entries L j <-> v = one /\ exists a b, joined A a b /\ j < i /\ i = p a /\ j = p b) ->
  exists T, csrOfCsc zero L = Ok T /\ good n T /\ same_matrix T L /\ (forall i e, e ∈ row_entries T i -> snd e = one) /\
    forall i j, edge T i j <-> j < i /\ exists a b, joined A a b /\ i = p a /\ j = p b.
Proof.
  intros HL Lr Lc Ls He. destruct (csrOfCsc_correct zero L HL) as (T & ET & HwT & Hsm & _ & _ & Hrow). pose proof Hsm as [Sr Sc Se].
  assert (Hd : distinct_cols L) by (intros j Hj; apply SSorted_NoDup, Ls, Hj).
  assert (Hin : forall i j v, (j, v) ∈ row_entries T i <-> (i, v) ∈ col_entries L j).
  { intros i j v. split; intros Hin.
    - pose proof (row_entries_range T i j v HwT Hin) as Hj. destruct (decide (i < rows T)) as [Hi|Hi]; [apply Se; auto|].
      exfalso. unfold row_entries in Hin. rewrite (lookup_ge_None_2 (rowptr T) (i + 1)) in Hin by (rewrite (wf_len T HwT); lia).
      destruct (rowptr T !! i); inversion Hin.
    - pose proof (col_range L i j v HL Hin) as [Hi Hj]. apply Se; [lia|lia|exact Hin]. }
  exists T. split; [exact ET|]. split; [|split; [exact Hsm|split]].
  - split; [exact HwT|]. split; [|split; congruence]. intros i Hi. apply Hrow; [exact Hi|exact Hd].
  - intros i [j v] Hjv. apply Hin, He in Hjv as [-> _]. reflexivity.
  - intros i j. unfold edge, row_cols. split.
    + intros [_ Hj]. apply elem_of_list_fmap in Hj as ([j' v] & -> & Hj). apply Hin, He in Hj as (_ & a & b & J & Hlt & Ei & Ej). simpl. eauto 10.
    + intros (Hlt & a & b & J & Ei & Ej). assert (H : (i, one) ∈ col_entries L j) by (apply He; eauto 10).
      pose proof (col_range L i j one HL H) as [Hi Hj]. split; [lia|]. apply elem_of_list_fmap. exists (j, one). split; [reflexivity|]. apply Hin, H.
Qed.
