(** Sorting and merging one block of OuterSpGEMM. *)
From Verif Require Export OuterModel.
From Verif Require Import BaseProofs RadixProofs.
From Verif Require Import Base Spec.

(** Positions (row, column), row by row. *)
Definition lt2 (p q : nat * nat) : Prop := p.1 < q.1 \/ (p.1 = q.1 /\ p.2 < q.2).
Lemma lt2_trans p q r : lt2 p q -> lt2 q r -> lt2 p r.
Proof. unfold lt2. lia. Qed.
Lemma lt2_irr p : ~ lt2 p p.
Proof. unfold lt2. lia. Qed.
Lemma lt2_total p q : p = q \/ lt2 p q \/ lt2 q p.
Proof.
  destruct p as [a b], q as [c d]. unfold lt2. cbn. destruct (decide (a = c)) as [->|H]; [destruct (decide (b = d)) as [->|H']; [left; reflexivity|right; lia]|right; lia].
Qed.

Section Sort.
Context {V : Type} (add : V -> V -> V).
Notation triple := (nat * nat * V)%type.

Lemma lor_shift w a c : (c < 2 ^ w)%N -> N.lor (N.shiftl a w) c = (a * 2 ^ w + c)%N.
Proof.
  intros Hc. rewrite <- N.shiftl_mul_pow2.
  assert (E : N.land (N.shiftl a w) c = 0%N).
  { apply N.bits_inj. intros i. rewrite N.land_spec, N.bits_0. destruct (N.ltb_spec i w) as [Hi|Hi].
    - rewrite N.shiftl_spec_low by exact Hi. reflexivity.
    - assert (E : N.testbit c i = false).
      { destruct (decide (c = 0)%N) as [->|Hz]; [apply N.bits_0|]. apply N.bits_above_log2. apply N.log2_lt_pow2; [lia|].
        eapply N.lt_le_trans; [exact Hc|]. apply N.pow_le_mono_r; lia. }
      rewrite E. apply andb_false_r. }
  rewrite <- N.lxor_lor by exact E. symmetry. apply N.add_nocarry_lxor, E.
Qed.

Lemma key2_val R (x : triple) : (N.of_nat R <= 4096)%N -> 1 <= R -> (N.of_nat x.1.2 < 2 ^ 20)%N ->
  key2 R x = (N.of_nat (x.1.1 mod R) * 2 ^ 20 + N.of_nat x.1.2)%N.
Proof.
  intros HR HR1 Hc. unfold key2. pose proof (Nat.mod_upper_bound x.1.1 R ltac:(lia)) as Hm.
  rewrite (N.mod_small (N.of_nat x.1.2)) by (eapply N.lt_trans; [exact Hc|reflexivity]).
  rewrite N.mod_small.
  2:{ rewrite N.shiftl_mul_pow2. change (2 ^ 32)%N with (4096 * 2 ^ 20)%N. apply N.mul_lt_mono_pos_r; [reflexivity|]. lia. }
  apply lor_shift, Hc.
Qed.

Lemma key2_bound R (x : triple) : (N.of_nat R <= 4096)%N -> 1 <= R -> (N.of_nat x.1.2 < 2 ^ 20)%N -> (key2 R x < 2 ^ 32)%N.
Proof.
  intros HR HR1 Hc. rewrite key2_val by assumption. pose proof (Nat.mod_upper_bound x.1.1 R ltac:(lia)) as Hm.
  change (2 ^ 32)%N with (4096 * 2 ^ 20)%N. nia.
Qed.

(** Within a block the keys are ordered as the positions. *)
Lemma key2_le R b (x y : triple) : (N.of_nat R <= 4096)%N -> 1 <= R -> (N.of_nat x.1.2 < 2 ^ 20)%N -> (N.of_nat y.1.2 < 2 ^ 20)%N ->
  x.1.1 / R = b -> y.1.1 / R = b -> (key2 R x <= key2 R y)%N -> x.1 = y.1 \/ lt2 x.1 y.1.
Proof.
  intros HR HR1 Hx Hy Bx By H. rewrite !key2_val in H by assumption.
  pose proof (Nat.div_mod x.1.1 R ltac:(lia)) as Ex. pose proof (Nat.div_mod y.1.1 R ltac:(lia)) as Ey. rewrite Bx in Ex. rewrite By in Ey.
  destruct (lt2_total x.1 y.1) as [E|[E|E]]; [left; exact E|right; exact E|exfalso].
  destruct x as [[rx cx] vx], y as [[ry cy] vy]. unfold lt2 in E. cbn in *.
  destruct E as [E|[E E']].
  - assert (ry mod R < rx mod R) by lia. assert (N.of_nat (ry mod R) + 1 <= N.of_nat (rx mod R))%N by lia.
    change (2 ^ 20)%N with 1048576%N in *. lia.
  - subst ry. change (2 ^ 20)%N with 1048576%N in *. lia.
Qed.

(** doMerge on a list, the result last element first. *)
Definition mstep (acc : list triple) (y : triple) : list triple :=
  match acc with
  | [] => [y]
  | x :: acc' => if decide (x.1 = y.1) then (x.1, add x.2 y.2) :: acc' else y :: acc
  end.
Definition merged (l : list triple) : list triple := reverse (fold_left mstep l []).

Lemma fold_left_snoc {A B} (f : A -> B -> A) l x a : fold_left f (l ++ [x]) a = f (fold_left f l a) x.
Proof. rewrite fold_left_app. reflexivity. Qed.

Lemma mstep_length acc y : length acc <= length (mstep acc y) <= length acc + 1.
Proof. destruct acc as [|x acc]; cbn; [lia|]. destruct (decide _); cbn; lia. Qed.

Lemma doMerge_ok l blk : holdsL blk l -> exists blk', doMerge add blk (length l) = Ok (length (merged l), blk') /\ holdsL blk' (merged l).
Proof.
  intros [HL Hh]. unfold doMerge. destruct l as [|x0 l0].
  { exists blk. split; [reflexivity|]. split; [cbn; lia|]. intros q x Hq. change (merged []) with (@nil triple) in Hq. rewrite lookup_nil in Hq. discriminate. }
  set (l := x0 :: l0) in *. change (length l =? 0) with false. cbv iota.
  destruct (for_inv (fun j (st : nat * list (option triple)) => let '(i, b) := st in
      let acc := fold_left mstep (take j l) [] in
      length acc = i + 1 /\ i + 1 <= j /\ length b = length blk /\
      (forall q x, reverse acc !! q = Some x -> b !! q = Some (Some x)) /\ (forall q, j <= q -> b !! q = blk !! q))
    (fun j '(i, blk) =>
      x <- getI blk i ;;
      y <- getI blk j ;;
      if (x.1.2 =? y.1.2) && (x.1.1 =? y.1.1) then
        blk <- set_ blk i (Some (x.1.1, x.1.2, add x.2 y.2)) ;;
        Ok (i, blk)
      else
        blk <- set_ blk (i + 1) (Some y) ;;
        Ok (i + 1, blk)) 1 (length l) (0, blk)) as ([i b'] & -> & H).
  - cbn. lia.
  - cbn. split; [reflexivity|]. split; [lia|]. split; [reflexivity|]. split; [|reflexivity].
    intros q x Hq. apply list_lookup_singleton_Some in Hq as [-> <-]. apply Hh. reflexivity.
  - intros j [i b] Hj (Hacc & Hi & Hlb & Hpre & Hpost). destruct (lookup_lt_is_Some_2 l j) as [y Hy]; [lia|].
    set (acc := fold_left mstep (take j l) []) in *. destruct acc as [|x acc'] eqn:Eacc; [cbn in Hacc; lia|]. cbn in Hacc.
    assert (Hx : b !! i = Some (Some x)).
    { apply Hpre. rewrite reverse_cons, lookup_app_r by (rewrite reverse_length; lia). rewrite reverse_length. replace (i - length acc') with 0 by lia. reflexivity. }
    rewrite (getI_Some _ _ _ Hx), bind_Ok. rewrite (getI_Some b j y) by (rewrite Hpost by lia; apply Hh, Hy). rewrite bind_Ok.
    replace (j + 1) with (S j) by lia. rewrite (take_S_r _ _ _ Hy), fold_left_snoc. fold acc. rewrite Eacc. cbn [mstep].
    destruct (decide (x.1 = y.1)) as [E|E].
    + rewrite E, !Nat.eqb_refl. cbn [andb]. rewrite set_Ok by lia. rewrite bind_Ok. eexists. split; [reflexivity|]. cbv beta iota zeta.
      split; [cbn; lia|]. split; [lia|]. split; [rewrite insert_length; exact Hlb|]. split.
      * intros q z Hq. rewrite reverse_cons in Hq. apply lookup_app_Some in Hq as [Hq|[Hge Hq]].
        -- rewrite list_lookup_insert_ne by (apply lookup_lt_Some in Hq; rewrite reverse_length in Hq; lia). apply Hpre. rewrite reverse_cons. apply lookup_app_l_Some, Hq.
        -- apply list_lookup_singleton_Some in Hq as [Hq <-]. rewrite reverse_length in Hge, Hq. replace q with i by lia. rewrite list_lookup_insert by lia. do 2 f_equal. destruct y as [[? ?] ?]. reflexivity.
      * intros q Hq. rewrite list_lookup_insert_ne by lia. apply Hpost. lia.
    + assert (Eb : (x.1.2 =? y.1.2) && (x.1.1 =? y.1.1) = false).
      { destruct (Nat.eqb_spec x.1.2 y.1.2), (Nat.eqb_spec x.1.1 y.1.1); try reflexivity. exfalso. apply E. destruct x as [[? ?] ?], y as [[? ?] ?]. cbn in *. congruence. }
      rewrite Eb. rewrite set_Ok by (rewrite Hlb; lia). rewrite bind_Ok. eexists. split; [reflexivity|]. cbv beta iota zeta.
      split; [cbn; lia|]. split; [lia|]. split; [rewrite insert_length; exact Hlb|]. split.
      * intros q z Hq. rewrite reverse_cons in Hq. apply lookup_app_Some in Hq as [Hq|[Hge Hq]].
        -- rewrite list_lookup_insert_ne by (apply lookup_lt_Some in Hq; rewrite reverse_length in Hq; cbn in Hq; lia). apply Hpre, Hq.
        -- apply list_lookup_singleton_Some in Hq as [Hq <-]. rewrite reverse_length in Hge, Hq. cbn in Hge, Hq. replace q with (i + 1) by lia. rewrite list_lookup_insert by lia. reflexivity.
      * intros q Hq. rewrite list_lookup_insert_ne by lia. apply Hpost. lia.
  - destruct H as (Hacc & Hi & Hlb & Hpre & _). rewrite firstn_all in Hacc, Hpre. rewrite bind_Ok. exists b'. split.
    + unfold merged. rewrite reverse_length, Hacc. reflexivity.
    + split; [|exact Hpre]. unfold merged. rewrite reverse_length, Hacc. lia.
Qed.

(** [M] lists the positions of [g] in order, each value the sum of the values at that position taken in some order. *)
Definition mergedOf (g M : list triple) : Prop :=
  StronglySorted lt2 (fst <$> M) /\
  (forall p v, (p, v) ∈ M -> exists ord, ord ≡ₚ (snd <$> filter (fun x => x.1 = p) g) /\ sum1 add ord = Some v) /\
  (forall x, x ∈ g -> x.1 ∈ (fst <$> M)).

Lemma mergedOf_perm g g' M : g ≡ₚ g' -> mergedOf g M -> mergedOf g' M.
Proof.
  intros Hp (H1 & H2 & H3). split; [exact H1|]. split.
  - intros p v Hv. destruct (H2 p v Hv) as (ord & Ho & Hs). exists ord. split; [|exact Hs]. rewrite Ho, Hp. reflexivity.
  - intros x Hx. apply H3. rewrite Hp. exact Hx.
Qed.

Lemma sum1_app1 (l : list V) x : sum1 add (l ++ [x]) = Some (match sum1 add l with Some s => add s x | None => x end).
Proof. destruct l as [|y l]; [reflexivity|]. cbn. rewrite fold_left_app. reflexivity. Qed.

Lemma SSorted_app {A} (R : A -> A -> Prop) l1 l2 : StronglySorted R l1 -> StronglySorted R l2 ->
  (forall x y, x ∈ l1 -> y ∈ l2 -> R x y) -> StronglySorted R (l1 ++ l2).
Proof.
  intros H1 H2 H. induction H1 as [|x l Hs IH Hf]; [exact H2|]. cbn. constructor.
  - apply IH. intros a c Ha Hc. apply H; [right; exact Ha|exact Hc].
  - apply Forall_app. split; [exact Hf|]. apply Forall_forall. intros y Hy. apply H; [left|exact Hy].
Qed.

Lemma SSorted_rev {A} (R : A -> A -> Prop) l : StronglySorted (fun x y => R y x) l -> StronglySorted R (reverse l).
Proof.
  induction 1 as [|x l Hs IH Hf]; [constructor|]. rewrite reverse_cons. apply SSorted_app.
  - exact IH.
  - repeat constructor.
  - intros a c Ha Hc. apply elem_of_list_singleton in Hc as ->. rewrite elem_of_reverse in Ha. rewrite Forall_forall in Hf. apply Hf, Ha.
Qed.

Lemma merged_ok l : StronglySorted (fun x y : triple => x.1 = y.1 \/ lt2 x.1 y.1) l -> mergedOf l (merged l).
Proof.
  intros Hs.
  assert (H : StronglySorted (fun x y => lt2 y.1 x.1) (fold_left mstep l []) /\
    (forall p v, (p, v) ∈ fold_left mstep l [] -> sum1 add (snd <$> filter (fun x => x.1 = p) l) = Some v) /\
    (forall x, x ∈ l -> x.1 ∈ (fst <$> fold_left mstep l []))).
  { induction l as [|y l IH] using rev_ind.
    - cbn. split; [constructor|]. split; [intros p v Hv; apply elem_of_nil in Hv; contradiction|intros x Hx; apply elem_of_nil in Hx; contradiction].
    - assert (Hsl : StronglySorted (fun x y : triple => x.1 = y.1 \/ lt2 x.1 y.1) l /\ forall x, x ∈ l -> x.1 = y.1 \/ lt2 x.1 y.1).
      { clear IH. induction l as [|a l IH]; [split; [constructor|intros x Hx; apply elem_of_nil in Hx; contradiction]|].
        inversion Hs as [|? ? Hs' Hf]; subst. destruct (IH Hs') as [I1 I2]. rewrite Forall_forall in Hf. split.
        - constructor; [exact I1|]. apply Forall_forall. intros z Hz. apply Hf, elem_of_app. auto.
        - intros x Hx. apply elem_of_cons in Hx as [->|Hx]; [apply Hf, elem_of_app; right; left|apply I2, Hx]. }
      destruct Hsl as [Hsl Hly]. destruct (IH Hsl) as (I1 & I2 & I3). clear IH. rewrite fold_left_snoc. set (acc := fold_left mstep l []) in *. clearbody acc.
      assert (Hpos : forall z, z ∈ acc -> exists x, x ∈ l /\ x.1 = z.1).
      { intros [p v] Hz. apply I2 in Hz. destruct (filter (fun x => x.1 = p) l) as [|x fl] eqn:E; [discriminate|].
        exists x. assert (Hx : x ∈ filter (fun x => x.1 = p) l) by (rewrite E; left). apply elem_of_list_filter in Hx as [? ?]. auto. }
      assert (Hlt : forall z, z ∈ acc -> z.1 = y.1 \/ lt2 z.1 y.1).
      { intros z Hz. destruct (Hpos z Hz) as (x & Hx & <-). apply Hly, Hx. }
      assert (Hnot : forall p, p <> y.1 -> filter (fun x => x.1 = p) (l ++ [y]) = filter (fun x => x.1 = p) l).
      { intros p Hp. rewrite filter_app, filter_cons_False by congruence. apply app_nil_r. }
      assert (Hyes : filter (fun x => x.1 = y.1) (l ++ [y]) = filter (fun x => x.1 = y.1) l ++ [y]).
      { rewrite filter_app, filter_cons_True by reflexivity. reflexivity. }
      destruct acc as [|x acc].
      + cbn. assert (l = []) as ->.
        { destruct l as [|a l]; [reflexivity|]. specialize (I3 a ltac:(left)). apply elem_of_nil in I3. contradiction. }
        split; [repeat constructor|]. split.
        * intros p v Hv. apply elem_of_list_singleton in Hv as Ev. subst y. cbn [app]. rewrite filter_cons_True by reflexivity. reflexivity.
        * intros z Hz. apply elem_of_list_singleton in Hz as ->. left.
      + inversion I1 as [|? ? J1 J2]; subst. rewrite Forall_forall in J2. cbn [mstep]. destruct (decide (x.1 = y.1)) as [E|E].
        * split; [|split].
          -- constructor; [exact J1|]. apply Forall_forall. intros z Hz. apply J2, Hz.
          -- intros p v Hv. apply elem_of_cons in Hv as [Hv|Hv].
             ++ injection Hv as -> ->. rewrite E, Hyes, fmap_app. change (snd <$> [y]) with [y.2]. rewrite sum1_app1. rewrite <- E. rewrite (I2 x.1 x.2) by (destruct x; left). reflexivity.
             ++ rewrite Hnot; [apply I2; right; exact Hv|]. intros ->. specialize (J2 _ Hv). cbn in J2. rewrite E in J2. exact (lt2_irr _ J2).
          -- intros z Hz. rewrite fmap_cons. cbn [fst]. apply elem_of_app in Hz as [Hz|Hz].
             ++ specialize (I3 z Hz). rewrite fmap_cons in I3. exact I3.
             ++ apply elem_of_list_singleton in Hz as ->. rewrite E. left.
        * assert (Hxy : lt2 x.1 y.1) by (destruct (Hlt x ltac:(left)); [contradiction|assumption]).
          assert (Hall : forall z, z ∈ x :: acc -> lt2 z.1 y.1).
          { intros z Hz. apply elem_of_cons in Hz as [->|Hz]; [exact Hxy|]. eapply lt2_trans; [apply J2, Hz|exact Hxy]. }
          assert (Hemp : filter (fun x => x.1 = y.1) l = []).
          { apply filter_none. intros z Hz Ez. specialize (I3 z Hz). apply elem_of_list_fmap in I3 as (w & Ew & Hw). apply (lt2_irr y.1). rewrite <- Ez at 1. rewrite Ew. apply Hall, Hw. }
          split; [|split].
          -- constructor; [exact I1|]. apply Forall_forall. exact Hall.
          -- intros p v Hv. apply elem_of_cons in Hv as [Hv|Hv].
             ++ subst y. cbn [fst] in *. rewrite Hyes, Hemp. reflexivity.
             ++ rewrite Hnot; [apply I2, Hv|]. intros ->. specialize (Hall _ Hv). cbn in Hall. exact (lt2_irr _ Hall).
          -- intros z Hz. rewrite fmap_cons. apply elem_of_app in Hz as [Hz|Hz]; [right; apply I3, Hz|]. apply elem_of_list_singleton in Hz as ->. left. }
  destruct H as (H1 & H2 & H3). split; [|split].
  - unfold merged. rewrite fmap_reverse. apply SSorted_rev. clear -H1. induction H1 as [|x acc Hs IH Hf]; [constructor|]. rewrite fmap_cons. constructor; [exact IH|].
    apply Forall_fmap. exact Hf.
  - intros p v Hv. unfold merged in Hv. rewrite elem_of_reverse in Hv. eexists. split; [reflexivity|]. apply H2, Hv.
  - intros x Hx. unfold merged. rewrite fmap_reverse, elem_of_reverse. apply H3, Hx.
Qed.

(** A key that orders the tuples of a block as their positions. *)
Definition keyOk (key : triple -> N) (g : list triple) : Prop :=
  (forall x, x ∈ g -> (key x < 2 ^ 32)%N) /\ forall x y, x ∈ g -> y ∈ g -> (key x <= key y)%N -> x.1 = y.1 \/ lt2 x.1 y.1.

Lemma key2_ok R b g : (N.of_nat R <= 4096)%N -> 1 <= R -> (forall x, x ∈ g -> x.1.1 / R = b /\ (N.of_nat x.1.2 < 2 ^ 20)%N) -> keyOk (key2 R) g.
Proof.
  intros HR HR1 Hx. split.
  - intros x Hin. apply key2_bound; [exact HR|exact HR1|apply Hx, Hin].
  - intros x y Hin Hin' H. apply (key2_le R b); try apply Hx; assumption.
Qed.

Lemma sortBlock_ok key g buf : (N.of_nat (length g) <= 2 ^ 64)%N -> keyOk key g -> length g <= length buf ->
  exists M blk, sortBlock add key buf (length g) (Some <$> g) = Ok (length M, blk) /\ holdsL blk M /\ mergedOf g M.
Proof.
  intros Hg [Hk Hle] Hbuf. unfold sortBlock. cbn [rsort].
  destruct (sizedSort_ok 4 key g (Some <$> g) buf Hg) as (a' & b' & l' & -> & _ & _ & _ & _ & Hh & Hst).
  - exact Hk.
  - split; [rewrite fmap_length; lia|]. intros q x Hq. rewrite list_lookup_fmap, Hq. reflexivity.
  - exact Hbuf.
  - change (Nat.odd 4) with false in *. cbv iota in Hh. rewrite bind_Ok. destruct Hst as (Hp & Hs & _).
    assert (El : length g = length l') by (apply Permutation_length; symmetry; exact Hp). rewrite El.
    destruct (doMerge_ok l' a' Hh) as (blk & -> & Hb). exists (merged l'), blk. split; [reflexivity|]. split; [exact Hb|].
    apply mergedOf_perm with l'; [exact Hp|]. apply merged_ok. eapply SSorted_impl; [|exact Hs]. intros x y Hxl Hyl H.
    rewrite Hp in Hxl, Hyl. apply Hle; assumption.
Qed.
End Sort.
