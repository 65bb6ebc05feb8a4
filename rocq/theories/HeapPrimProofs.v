(** The libstdc++ heap algorithms keep the multiset and establish the heap order. *)
From Verif Require Import Base Spec BaseProofs HeapModel.
Ltac Zify.zify_post_hook ::= Z.div_mod_to_equations.

Definition par (i : nat) : nat := (i - 1) / 2.

(** Every parent with index at least [top] (and its children below [len]) is in order. *)
Definition heap_from (top len : nat) (l : list hentry) : Prop :=
  forall i a b, 0 < i < len -> top <= par i -> l !! par i = Some a -> l !! i = Some b -> ek a <= ek b.
Definition is_heap (l : list hentry) : Prop := heap_from 0 (length l) l.

Inductive desc (top : nat) : nat -> Prop :=
| desc_top : desc top top
| desc_l p : desc top p -> desc top (2 * p + 1)
| desc_r p : desc top p -> desc top (2 * p + 2).

Lemma par_l p : par (2 * p + 1) = p. Proof. unfold par. lia. Qed.
Lemma par_r p : par (2 * p + 2) = p. Proof. unfold par. lia. Qed.
Lemma par_cases i : 0 < i -> i = 2 * par i + 1 \/ i = 2 * par i + 2.
Proof. unfold par. lia. Qed.
Lemma par_lt i : 0 < i -> par i < i. Proof. unfold par. lia. Qed.

Lemma desc_ge top i : desc top i -> top <= i.
Proof. induction 1; lia. Qed.
Lemma desc_par top i : desc top i -> top < i -> desc top (par i) /\ top <= par i.
Proof.
  intros Hd Hlt. inversion Hd; subst; [lia| |].
  - rewrite par_l. split; [assumption|apply desc_ge; assumption].
  - rewrite par_r. split; [assumption|apply desc_ge; assumption].
Qed.

(** The hole invariant: ordered away from the hole, and across it. *)
Record hole_inv (top len hole : nat) (l : list hentry) : Prop := mkHole {
  hi_desc : desc top hole;
  hi_away : forall i a b, 0 < i < len -> top <= par i -> i <> hole -> par i <> hole ->
      l !! par i = Some a -> l !! i = Some b -> ek a <= ek b;
  hi_across : forall i a b, top < hole -> 0 < i < len -> par i = hole ->
      l !! par hole = Some a -> l !! i = Some b -> ek a <= ek b }.

Lemma Permutation_insert_swap {A} (l : list A) i j (v x : A) : i <> j -> l !! j = Some x -> i < length l ->
  <[j:=v]> (<[i:=x]> l) ≡ₚ <[i:=v]> l.
Proof.
  intros Hij Hj Hi. destruct (lookup_lt_is_Some_2 l i Hi) as [y Hy].
  assert (Hgen : forall (l : list A) i j x y, i < j -> l !! i = Some y -> l !! j = Some x ->
            exists l1 l2 l3, l = l1 ++ y :: l2 ++ x :: l3 /\
              length l1 = i /\ length l1 + 1 + length l2 = j).
  { clear. intros l i j x y Hij Hi Hj.
    exists (take i l), (take (j - i - 1) (drop (S i) l)), (drop (S j) l).
    pose proof (lookup_lt_Some _ _ _ Hj). rewrite !take_length, drop_length. split; [|lia].
    rewrite <- (take_drop_middle l i y Hi) at 1. f_equal. f_equal.
    rewrite <- (take_drop (j - i - 1) (drop (S i) l)) at 1. f_equal. rewrite drop_drop.
    replace (S i + (j - i - 1)) with j by lia. apply drop_S, Hj. }
  destruct (lt_eq_lt_dec i j) as [[Hlt|He]|Hgt]; [| lia |].
  - destruct (Hgen l i j x y Hlt Hy Hj) as (l1 & l2 & l3 & -> & H1 & H2).
    replace i with (length l1 + 0) by lia. rewrite !insert_app_r. simpl.
    replace j with (length l1 + S (length l2 + 0)) by lia. rewrite !insert_app_r. simpl. rewrite !insert_app_r.
    simpl. apply Permutation_app_head. rewrite <- !Permutation_middle. apply perm_swap.
  - destruct (Hgen l j i y x Hgt Hj Hy) as (l1 & l2 & l3 & -> & H1 & H2).
    replace i with (length l1 + S (length l2 + 0)) by lia. rewrite !insert_app_r. simpl. rewrite !insert_app_r. simpl.
    replace j with (length l1 + 0) by lia. rewrite !insert_app_r. simpl.
    apply Permutation_app_head. rewrite <- !Permutation_middle. apply perm_swap.
Qed.

Lemma push_up_spec fuel : forall l top len hole v, hole < len -> len <= length l -> hole < fuel ->
  hole_inv top len hole l ->
  (forall i b, 0 < i < len -> par i = hole -> l !! i = Some b -> ek v <= ek b) ->
  exists l', push_up fuel l hole top v = Ok l' /\ l' ≡ₚ <[hole:=v]> l /\ heap_from top len l' /\
    (forall i, len <= i -> l' !! i = l !! i) /\ length l' = length l.
Proof.
  induction fuel as [|fuel IH]; intros l top len hole v Hh Hlen Hf [Hd Ha Hx] Hc; [lia|].
  cbn [push_up].
  assert (Hfin : (top < hole -> forall p, l !! par hole = Some p -> ek p <= ek v) ->
    exists l', set_ l hole v = Ok l' /\ l' ≡ₚ <[hole:=v]> l /\ heap_from top len l' /\
    (forall i, len <= i -> l' !! i = l !! i) /\ length l' = length l).
  { intros Hp. rewrite set_Ok by lia. eexists. split; [reflexivity|]. split; [reflexivity|]. split.
    - intros i a b Hi Ht Hpa Hb.
      destruct (decide (i = hole)) as [->|Hni].
      + rewrite list_lookup_insert in Hb by lia. inversion Hb; subst b.
        pose proof (par_lt hole ltac:(lia)). rewrite list_lookup_insert_ne in Hpa by lia.
        apply (Hp ltac:(lia) a Hpa).
      + rewrite list_lookup_insert_ne in Hb by lia.
        destruct (decide (par i = hole)) as [He|Hnp].
        * rewrite He, list_lookup_insert in Hpa by lia. inversion Hpa; subst a.
          apply (Hc i b); auto.
        * rewrite list_lookup_insert_ne in Hpa by lia. apply (Ha i a b); auto.
    - split; [|apply insert_length]. intros i Hi. apply list_lookup_insert_ne. lia. }
  destruct (Nat.ltb_spec top hole) as [Hlt|Hge].
  2:{ apply Hfin. intros Hcon. lia. }
  destruct (desc_par _ _ Hd Hlt) as [Hdp Htp].
  pose proof (par_lt hole ltac:(lia)) as Hpl. fold (par hole).
  destruct (lookup_lt_is_Some_2 l (par hole)) as [p Hp]; [lia|].
  rewrite (get_Some _ _ _ Hp), bind_Ok. unfold ent_lt.
  destruct (Nat.ltb_spec (ek v) (ek p)) as [Hvp|Hvp].
  2:{ apply Hfin. intros _ p' Hp'. rewrite Hp in Hp'. inversion Hp'; subst. lia. }
  rewrite set_Ok by lia. rewrite bind_Ok.
  destruct (IH (<[hole:=p]> l) top len (par hole) v) as (l' & Hl' & Hperm & Hheap & Hout & Hll); try (rewrite ?insert_length; lia).
  - split; [exact Hdp| |].
    + intros i a b Hi Ht Hni Hnp Hpa Hb.
      assert (i <> hole) as Hih by (intros ->; apply Hnp; reflexivity).
      rewrite list_lookup_insert_ne in Hb by lia.
      destruct (decide (par i = hole)) as [He|Hne].
      * rewrite He, list_lookup_insert in Hpa by lia. inversion Hpa; subst a.
        apply (Hx i p b); auto.
      * rewrite list_lookup_insert_ne in Hpa by lia. apply (Ha i a b); auto.
    + intros i a b Htp' Hi Hpi Hpa Hb.
      pose proof (par_lt (par hole) ltac:(lia)) as Hppl.
      rewrite list_lookup_insert_ne in Hpa by lia.
      assert (ek a <= ek p) as Hap.
      { apply (Ha (par hole) a p); auto; try lia.
        destruct (desc_par _ _ Hdp Htp') as [_ H]. exact H. }
      destruct (decide (i = hole)) as [->|Hni].
      * rewrite list_lookup_insert in Hb by lia. inversion Hb; subst. exact Hap.
      * rewrite list_lookup_insert_ne in Hb by lia.
        assert (ek p <= ek b); [|lia]. apply (Ha i p b); auto; try lia. rewrite Hpi. exact Hp.
  - intros i b Hi Hpi Hb. destruct (decide (i = hole)) as [->|Hni].
    + rewrite list_lookup_insert in Hb by lia. inversion Hb; subst. lia.
    + rewrite list_lookup_insert_ne in Hb by lia.
      assert (ek p <= ek b); [|lia]. apply (Ha i p b); auto; try lia. rewrite Hpi. exact Hp.
  - exists l'. split; [exact Hl'|]. split.
    { rewrite Hperm. apply Permutation_insert_swap; [lia|exact Hp|lia]. }
    split; [exact Hheap|]. split; [|rewrite Hll; apply insert_length].
    intros i Hi. rewrite Hout by exact Hi. apply list_lookup_insert_ne. lia.
Qed.

(** One step down. *)
Lemma hole_down l top len hole c e : hole < len -> len <= length l -> hole_inv top len hole l ->
  c < len -> 0 < c -> par c = hole -> l !! c = Some e ->
  (forall i b, 0 < i < len -> par i = hole -> l !! i = Some b -> ek e <= ek b) ->
  hole_inv top len c (<[hole:=e]> l).
Proof.
  intros Hh Hlen [Hd Ha Hx] Hc Hc0 Hpc He Hmin. pose proof (par_lt c Hc0).
  split.
  - destruct (par_cases c Hc0) as [-> | ->]; rewrite Hpc; constructor; exact Hd.
  - intros i a b Hi Ht Hic Hpi Hpa Hb.
    destruct (decide (i = hole)) as [->|Hih].
    + rewrite list_lookup_insert in Hb by lia. inversion Hb; subst b.
      pose proof (par_lt hole ltac:(lia)). rewrite list_lookup_insert_ne in Hpa by lia.
      apply (Hx c a e); auto; try lia.
    + rewrite list_lookup_insert_ne in Hb by lia.
      destruct (decide (par i = hole)) as [Hp|Hp].
      * rewrite Hp, list_lookup_insert in Hpa by lia. inversion Hpa; subst a. apply (Hmin i b); auto.
      * rewrite list_lookup_insert_ne in Hpa by lia. apply (Ha i a b); auto.
  - intros i a b Htc Hi Hpi Hpa Hb. rewrite Hpc, list_lookup_insert in Hpa by lia. inversion Hpa; subst a.
    pose proof (par_lt i ltac:(lia)).
    rewrite list_lookup_insert_ne in Hb by lia.
    pose proof (desc_ge _ _ Hd).
    apply (Ha i e b); [lia|lia|lia|lia| |exact Hb]. rewrite Hpi. exact He.
Qed.

Lemma sift_down_spec fuel : forall l top len hole v, hole < len -> len <= length l -> len < hole + fuel ->
  hole_inv top len hole l ->
  exists l' hole', sift_down fuel l hole len = Ok (l', hole') /\ hole_inv top len hole' l' /\
    <[hole':=v]> l' ≡ₚ <[hole:=v]> l /\ hole' < len /\ (len - 1) / 2 <= hole' /\
    (forall i, len <= i -> l' !! i = l !! i) /\ length l' = length l.
Proof.
  induction fuel as [|fuel IH]; intros l top len hole v Hh Hlen Hf Hi; [lia|].
  cbn [sift_down]. destruct (Nat.ltb_spec hole ((len - 1) / 2)) as [Hlt|Hge].
  2:{ exists l, hole. auto 10. }
  cbv zeta.
  destruct (lookup_lt_is_Some_2 l (2 * (hole + 1))) as [a Ha]; [lia|].
  destruct (lookup_lt_is_Some_2 l (2 * (hole + 1) - 1)) as [b Hb]; [lia|].
  rewrite (get_Some _ _ _ Ha), bind_Ok, (get_Some _ _ _ Hb), bind_Ok.
  assert (Hgo : forall c e, (c = 2 * (hole + 1) \/ c = 2 * (hole + 1) - 1) -> l !! c = Some e ->
     ek e <= ek a -> ek e <= ek b ->
     exists l' hole', (e0 <- get l c ;; l' <- set_ l hole e0 ;; sift_down fuel l' c len) = Ok (l', hole') /\
       hole_inv top len hole' l' /\
    <[hole':=v]> l' ≡ₚ <[hole:=v]> l /\ hole' < len /\ (len - 1) / 2 <= hole' /\
    (forall i, len <= i -> l' !! i = l !! i) /\ length l' = length l).
  { intros c e Hc He Hea Heb. rewrite (get_Some _ _ _ He), bind_Ok. rewrite set_Ok by lia. rewrite bind_Ok.
    destruct (IH (<[hole:=e]> l) top len c v) as (l' & h' & H1 & H2 & H3 & H4 & H5 & H6 & H7); try (rewrite ?insert_length; lia).
    - apply hole_down; auto; try lia.
      + unfold par. lia.
      + intros i b' Hi' Hp Hb'. unfold par in Hp.
        assert (i = 2 * (hole + 1) \/ i = 2 * (hole + 1) - 1) as [-> | ->] by lia.
        * rewrite Ha in Hb'. inversion Hb'; subst. exact Hea.
        * rewrite Hb in Hb'. inversion Hb'; subst. exact Heb.
    - exists l', h'. split; [exact H1|]. split; [exact H2|]. split.
      { rewrite H3. apply Permutation_insert_swap; [lia|exact He|lia]. }
      split; [exact H4|]. split; [exact H5|]. split; [|rewrite H7; apply insert_length].
      intros i Hi'. rewrite H6 by exact Hi'. apply list_lookup_insert_ne. lia. }
  unfold ent_lt. destruct (Nat.ltb_spec (ek b) (ek a)) as [Hba|Hba].
  - apply (Hgo _ b); auto; lia.
  - apply (Hgo _ a); auto; lia.
Qed.

Lemma adjust_heap_spec l top len v : top < len -> len <= length l -> heap_from (top + 1) len l ->
  exists l', adjust_heap l top len v = Ok l' /\ l' ≡ₚ <[top:=v]> l /\ heap_from top len l' /\
    (forall i, len <= i -> l' !! i = l !! i) /\ length l' = length l.
Proof.
  intros Ht Hlen Hh. unfold adjust_heap.
  destruct (sift_down_spec (len + 1) l top len top v) as (l1 & h1 & -> & Hinv & Hp1 & Hh1 & Hge & Hout1 & Hl1); auto; try lia.
  { split; [constructor| |].
    - intros i a b Hi Htp Hi1 Hp1 Ha Hb. apply (Hh i a b); auto. lia.
    - intros i a b Hcon. lia. }
  rewrite bind_Ok.
  destruct (Nat.eqb_spec (len mod 2) 0) as [Hm|Hm]; cbn [andb].
  1: destruct (Nat.eqb_spec h1 ((len - 2) / 2)) as [He|He].
  - destruct (lookup_lt_is_Some_2 l1 (2 * (h1 + 1) - 1)) as [e Hel]; [lia|].
    rewrite (get_Some _ _ _ Hel), bind_Ok. rewrite set_Ok by lia. rewrite !bind_Ok.
    destruct (push_up_spec (2 * (h1 + 1) - 1 + 1) (<[h1:=e]> l1) top len (2 * (h1 + 1) - 1) v) as (l2 & -> & Hp2 & Hf2 & Hout2 & Hl2);
      try (rewrite ?insert_length; lia).
    + apply hole_down; auto; try lia.
      * unfold par. lia.
      * intros i b Hi Hp Hb. unfold par in Hp. assert (i = 2 * (h1 + 1) - 1) as -> by lia.
        rewrite Hel in Hb. inversion Hb; subst. lia.
    + intros i b Hi Hp. unfold par in Hp. lia.
    + exists l2. split; [reflexivity|]. split.
      { rewrite Hp2, <- Hp1. apply Permutation_insert_swap; [lia|exact Hel|lia]. }
      split; [exact Hf2|]. split; [|rewrite Hl2, insert_length; exact Hl1].
      intros i Hi. rewrite Hout2 by exact Hi. rewrite list_lookup_insert_ne by lia. apply Hout1, Hi.
  - rewrite bind_Ok.
    destruct (push_up_spec (h1 + 1) l1 top len h1 v) as (l2 & -> & Hp2 & Hf2 & Hout2 & Hl2); auto; try lia.
    + intros i b Hi Hp. unfold par in Hp. lia.
    + exists l2. split; [reflexivity|]. split; [rewrite Hp2; exact Hp1|]. split; [exact Hf2|].
      split; [|lia]. intros i Hi. rewrite Hout2 by exact Hi. apply Hout1, Hi.
  - rewrite bind_Ok.
    destruct (push_up_spec (h1 + 1) l1 top len h1 v) as (l2 & -> & Hp2 & Hf2 & Hout2 & Hl2); auto; try lia.
    + intros i b Hi Hp. unfold par in Hp. lia.
    + exists l2. split; [reflexivity|]. split; [rewrite Hp2; exact Hp1|]. split; [exact Hf2|].
      split; [|lia]. intros i Hi. rewrite Hout2 by exact Hi. apply Hout1, Hi.
Qed.

Lemma make_heap_spec l : exists l', make_heap l = Ok l' /\ l' ≡ₚ l /\ is_heap l'.
Proof.
  unfold make_heap. destruct (Nat.ltb_spec (length l) 2) as [Hlt|Hge].
  { exists l. split; [reflexivity|]. split; [reflexivity|]. intros i a b Hi. lia. }
  assert (Hgen : forall n l0, length l0 = length l -> n <= length l -> heap_from n (length l) l0 ->
    exists l', make_loop n l0 (length l) = Ok l' /\ l' ≡ₚ l0 /\ heap_from 0 (length l) l').
  { induction n as [|n IH]; intros l0 Hl0 Hn Hh; cbn [make_loop].
    - exists l0. auto.
    - destruct (lookup_lt_is_Some_2 l0 n) as [v Hv]; [lia|].
      rewrite (get_Some _ _ _ Hv), bind_Ok.
      destruct (adjust_heap_spec l0 n (length l) v) as (l1 & -> & Hp & Hf & _ & Hl1); try lia.
      { intros i a b Hi Ht. apply Hh; [exact Hi|lia]. }
      rewrite bind_Ok. destruct (IH l1) as (l' & H1 & H2 & H3); [lia|lia|exact Hf|].
      exists l'. split; [exact H1|]. split; [|exact H3]. rewrite H2, Hp, list_insert_id by exact Hv. reflexivity. }
  destruct (Hgen ((length l - 2) / 2 + 1) l) as (l' & H1 & H2 & H3); auto; [lia| |].
  { intros i a b Hi Ht. unfold par in Ht. lia. }
  exists l'. split; [exact H1|]. split; [exact H2|]. unfold is_heap.
  rewrite (Permutation_length H2). exact H3.
Qed.

Lemma is_heap_min l r : is_heap l -> l !! 0 = Some r -> forall e, e ∈ l -> ek r <= ek e.
Proof.
  intros Hh Hr e He. apply elem_of_list_lookup in He as [i Hi].
  revert e Hi. induction i as [i IH] using lt_wf_ind. intros e Hi.
  destruct (decide (i = 0)) as [->|Hne].
  - rewrite Hr in Hi. inversion Hi; subst. lia.
  - pose proof (par_lt i ltac:(lia)) as Hp.
    pose proof (lookup_lt_Some _ _ _ Hi).
    destruct (lookup_lt_is_Some_2 l (par i)) as [p Hpi]; [lia|].
    specialize (IH (par i) Hp p Hpi).
    assert (ek p <= ek e) by (eapply (Hh i p e); eauto; lia). lia.
Qed.

(** Order everywhere except that the root may be out of place. *)
Definition root_bad (l : list hentry) : Prop := heap_from 1 (length l) l.

Lemma pop_heap_spec l r l0 : l = r :: l0 -> root_bad l ->
  exists l1, pop_heap l = Ok (l1 ++ [r]) /\ l1 ≡ₚ l0 /\ is_heap l1.
Proof.
  intros -> Hb. unfold pop_heap. destruct (Nat.ltb_spec 1 (length (r :: l0))) as [Hlt|Hge].
  2:{ destruct l0; [|simpl in Hge; lia]. exists []. split; [reflexivity|]. split; [reflexivity|].
      intros i a b Hi. simpl in Hi. lia. }
  destruct (decide (l0 = [])) as [->|Hne]; [simpl in Hlt; lia|].
  destruct (exists_last Hne) as (l2 & v & ->).
  assert (Hlen : length (r :: l2 ++ [v]) - 1 = S (length l2)) by (simpl; rewrite app_length; simpl; lia).
  rewrite Hlen. cbv zeta.
  assert (Hv : (r :: l2 ++ [v]) !! S (length l2) = Some v).
  { simpl. rewrite lookup_app_r by lia. rewrite Nat.sub_diag. reflexivity. }
  rewrite (get_Some _ _ _ Hv), bind_Ok. rewrite (get_Some _ 0 r) by reflexivity. rewrite bind_Ok.
  rewrite set_Ok by (simpl; rewrite app_length; simpl; lia). rewrite bind_Ok.
  assert (Hins : <[S (length l2):=r]> (r :: l2 ++ [v]) = r :: l2 ++ [r]).
  { simpl. f_equal. rewrite <- (Nat.add_0_r (length l2)). rewrite insert_app_r. reflexivity. }
  rewrite Hins.
  destruct (adjust_heap_spec (r :: l2 ++ [r]) 0 (S (length l2)) v) as (l' & -> & Hp & Hf & Hout & Hl'); [lia| | |].
  - simpl. rewrite app_length. simpl. lia.
  - intros i a b Hi Ht Ha Hbb.
    assert (Hpi : par i < S (length l2)) by (pose proof (par_lt i ltac:(lia)); lia).
    assert (Hlk : forall k, k < S (length l2) -> (r :: l2 ++ [r]) !! k = (r :: l2 ++ [v]) !! k).
    { intros k Hk. destruct k as [|k]; [reflexivity|]. simpl. rewrite !lookup_app_l by lia. reflexivity. }
    rewrite Hlk in Ha, Hbb by lia.
    apply (Hb i a b); try assumption. simpl. rewrite app_length. lia.
  - assert (Hlast : l' = take (S (length l2)) l' ++ [r]).
    { rewrite <- (take_drop (S (length l2)) l') at 1. f_equal.
      assert (l' !! S (length l2) = Some r) as Hr.
      { rewrite Hout by lia. simpl. rewrite lookup_app_r by lia. rewrite Nat.sub_diag. reflexivity. }
      rewrite (drop_S _ _ _ Hr). f_equal. apply drop_ge. rewrite Hl'. simpl. rewrite app_length. simpl. lia. }
    exists (take (S (length l2)) l'). rewrite <- Hlast. split; [reflexivity|]. split.
    + rewrite Hlast in Hp. simpl in Hp.
      assert (take (S (length l2)) l' ++ [r] ≡ₚ (v :: l2) ++ [r]) as Hp2 by exact Hp.
      apply Permutation_app_inv_r in Hp2. rewrite Hp2. apply Permutation_cons_append.
    + unfold is_heap. rewrite take_length. simpl in Hl'. rewrite app_length in Hl'. simpl in Hl'.
      replace (S (length l2) `min` length l') with (S (length l2)) by lia.
      intros i a b Hi Ht Ha Hbb. pose proof (par_lt i ltac:(lia)).
      rewrite lookup_take in Ha, Hbb by lia. apply (Hf i a b); auto.
Qed.

Lemma push_heap_spec l v : is_heap l ->
  exists l', push_heap (l ++ [v]) = Ok l' /\ l' ≡ₚ v :: l /\ is_heap l'.
Proof.
  intros Hh. unfold push_heap. rewrite app_length. simpl. replace (length l + 1 - 1) with (length l) by lia.
  cbv zeta. assert (Hv : (l ++ [v]) !! length l = Some v) by (rewrite lookup_app_r, Nat.sub_diag by lia; reflexivity).
  rewrite (get_Some _ _ _ Hv), bind_Ok.
  destruct (push_up_spec (length l + 1) (l ++ [v]) 0 (length l + 1) (length l) v) as (l' & -> & Hp & Hf & _ & Hl');
    try (rewrite ?app_length; simpl; lia).
  - split.
    + assert (forall n, desc 0 n) as Hd; [|apply Hd]. induction n as [n IH] using lt_wf_ind.
      destruct (decide (n = 0)) as [->|Hne]; [constructor|].
      pose proof (par_lt n ltac:(lia)). destruct (par_cases n ltac:(lia)) as [He|He]; rewrite He; [apply desc_l|apply desc_r]; apply IH; lia.
    + intros i a b Hi _ Hne Hnp Ha Hb. pose proof (par_lt i ltac:(lia)).
      rewrite lookup_app_l in Ha, Hb by lia. apply (Hh i a b); auto; lia.
    + intros i a b _ Hi Hp. pose proof (par_lt i ltac:(lia)). lia.
  - intros i b Hi Hp. pose proof (par_lt i ltac:(lia)). lia.
  - exists l'. split; [reflexivity|]. split.
    + rewrite Hp. rewrite list_insert_id by exact Hv. symmetry. apply Permutation_cons_append.
    + unfold is_heap. rewrite Hl', app_length. exact Hf.
Qed.

Lemma h_make_spec h : exists h', h_make h = Ok h' /\ hp h' ≡ₚ hp h /\ is_heap (hp h') /\ hcap h' = hcap h /\
  hmax h' = Nat.max (hmax h) (length (hp h)).
Proof.
  unfold h_make. destruct (make_heap_spec (hp h)) as (l & -> & Hp & Hh). rewrite bind_Ok.
  eexists. split; [reflexivity|]. simpl. split; [exact Hp|]. split; [exact Hh|]. split; [reflexivity|].
  destruct (Nat.ltb_spec (hmax h) (length (hp h))); lia.
Qed.

Lemma h_pop_spec h r l0 : hp h = r :: l0 -> root_bad (hp h) ->
  exists h', h_pop h = Ok h' /\ hp h' ≡ₚ l0 /\ is_heap (hp h') /\ hcap h' = hcap h /\ hmax h' = hmax h.
Proof.
  intros Hr Hb. unfold h_pop. destruct (pop_heap_spec (hp h) r l0 Hr Hb) as (l1 & -> & Hp & Hh). rewrite bind_Ok.
  eexists. split; [reflexivity|]. simpl. rewrite app_length. simpl.
  replace (length l1 + 1 - 1) with (length l1) by lia. rewrite take_app. auto.
Qed.

Lemma h_sinkRoot_spec h r l0 : hp h = r :: l0 -> root_bad (hp h) ->
  exists h', h_sinkRoot h = Ok h' /\ hp h' ≡ₚ r :: l0 /\ is_heap (hp h') /\ hcap h' = hcap h /\ hmax h' = hmax h.
Proof.
  intros Hr Hb. unfold h_sinkRoot. destruct (pop_heap_spec (hp h) r l0 Hr Hb) as (l1 & -> & Hp & Hh). rewrite bind_Ok.
  destruct (push_heap_spec l1 r Hh) as (l2 & -> & Hp2 & Hh2). rewrite bind_Ok.
  eexists. split; [reflexivity|]. simpl. split; [rewrite Hp2, Hp; reflexivity|]. auto.
Qed.

Lemma root_bad_set l e r l0 : is_heap l -> l = r :: l0 -> root_bad (e :: l0).
Proof.
  intros Hh -> i a b Hi Ht Ha Hb. pose proof (par_lt i ltac:(lia)).
  apply (Hh i a b); auto; try lia.
  - destruct (par i) as [|k]; [lia|]. exact Ha.
  - destruct i as [|k]; [lia|]. exact Hb.
Qed.
