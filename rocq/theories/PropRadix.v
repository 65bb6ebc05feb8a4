(** C50: radix_sort (radix_sort/radix_sort.hpp) is a stable sort, for every type of key. *)
From Verif Require Export RadixProofs.
From Verif Require Import Base.

Global Instance rden_eq t : EqDecision (rden t).
Proof. induction t as [p|p|p| | |k IHk v IHv]; simpl; apply _. Defined.

(** The number that bits [u] of a float or double stand for, up to order: -0 is below +0, infinities are at the
    ends, the rest as usual. *)
Definition fval (p : nat) (u : N) : Z :=
  let top := (2 ^ (8 * Z.of_nat p - 1))%Z in
  if (Z.of_N u <? top)%Z then Z.of_N u else (top - 1 - Z.of_N u)%Z.

(** The order of the keys. *)
Fixpoint rle (t : rty) : rden t -> rden t -> Prop :=
  match t with
  | RU _ => N.le
  | RS _ => Z.le
  | RF p => fun a b => (fval p a <= fval p b)%Z
  | RBool => fun a b => a = true -> b = true
  | RUnit => fun _ _ => True
  | RPair k v => fun a b => (a.1 <> b.1 /\ rle k a.1 b.1) \/ (a.1 = b.1 /\ rle v a.2 b.2)
  end.

(** Values of the type. *)
Fixpoint fits (t : rty) : rden t -> Prop :=
  match t with
  | RU p => fun k => (k < 2 ^ (8 * N.of_nat p))%N
  | RS p => fun k => (- 2 ^ (8 * Z.of_nat p - 1) <= k < 2 ^ (8 * Z.of_nat p - 1))%Z
  | RF p => fun k => (k < 2 ^ (8 * N.of_nat p))%N
  | RBool | RUnit => fun _ => True
  | RPair k v => fun a => fits k a.1 /\ fits v a.2
  end.
(** Numbers have at least one byte. *)
Fixpoint sized (t : rty) : Prop :=
  match t with RU p | RS p | RF p => 1 <= p | RBool | RUnit => True | RPair k v => sized k /\ sized v end.

Lemma pow8 p : 1 <= p -> (2 ^ (8 * Z.of_nat p) = 2 * 2 ^ (8 * Z.of_nat p - 1))%Z.
Proof. intros Hp. rewrite <- Z.pow_succ_r by lia. f_equal. lia. Qed.

Lemma to_unsigned_val p z : 1 <= p -> (- 2 ^ (8 * Z.of_nat p - 1) <= z < 2 ^ (8 * Z.of_nat p - 1))%Z ->
  Z.of_N (to_unsigned p z) = (z + 2 ^ (8 * Z.of_nat p - 1))%Z.
Proof.
  intros Hp Hz. unfold to_unsigned. pose proof (pow8 p Hp) as E.
  assert (0 < 2 ^ (8 * Z.of_nat p - 1))%Z by (apply Z.pow_pos_nonneg; lia).
  rewrite Z.add_mod_idemp_l by lia. rewrite Z.mod_small by lia. rewrite Z2N.id by lia. reflexivity.
Qed.

Lemma to_unsigned_f_val p u : 1 <= p -> (u < 2 ^ (8 * N.of_nat p))%N ->
  Z.of_N (to_unsigned_f p u) = (fval p u + 2 ^ (8 * Z.of_nat p - 1))%Z.
Proof.
  intros Hp Hu. unfold to_unsigned_f, fval.
  set (e := (8 * N.of_nat p - 1)%N).
  assert (He0 : (0 < e)%N) by lia.
  replace (8 * N.of_nat p)%N with (N.succ e) in * by lia.
  replace (8 * Z.of_nat p - 1)%Z with (Z.of_N e) by lia.
  assert (Ez : (2 ^ Z.of_N e)%Z = Z.of_N (2 ^ e)) by (rewrite N2Z.inj_pow; reflexivity). rewrite Ez.
  rewrite N.pow_succ_r' in Hu.
  rewrite N.shiftr_div_pow2. destruct (Z.ltb_spec (Z.of_N u) (Z.of_N (2 ^ e))) as [Hlt|Hge].
  - rewrite N.div_small by lia. change (0 =? 0)%N with true. cbv iota. rewrite N.lor_0_l.
    rewrite <- N.add_nocarry_lxor; [lia|]. apply N.bits_inj. intros i. rewrite N.land_spec, N.bits_0.
    destruct (decide (i = e)) as [->|Hne].
    + rewrite (N.bits_above_log2 u e); [reflexivity|]. destruct (decide (u = 0)%N) as [->|Hz].
      * change (N.log2 0) with 0%N. exact He0.
      * apply N.log2_lt_pow2; lia.
    + rewrite N.pow2_bits_false by congruence. apply andb_false_r.
  - destruct (N.eqb_spec (u / 2 ^ e) 0) as [E|E].
    + exfalso. apply N.div_small_iff in E; [lia|]. pose proof (pow2_pos e). lia.
    + assert (El : N.lor (N.ones (N.succ e)) (2 ^ e) = N.ones (N.succ e)).
      { apply N.bits_inj. intros i. rewrite N.lor_spec. destruct (decide (i < N.succ e)%N) as [Hi|Hi].
        - rewrite N.ones_spec_low by lia. reflexivity.
        - rewrite N.ones_spec_high by lia. rewrite N.pow2_bits_false by lia. reflexivity. }
      rewrite El. fold (N.lnot u (N.succ e)).
      rewrite N.lnot_sub_low by (apply N.log2_lt_pow2; [pose proof (pow2_pos e); lia|rewrite N.pow_succ_r'; lia]).
      rewrite N.ones_equiv, N.pow_succ_r'. lia.
Qed.

Lemma sortsTo_rekey {T K K'} `{EqDecision K} `{EqDecision K'} (R : K -> K -> Prop) (R' : K' -> K' -> Prop)
    (k : T -> K) (k' : T -> K') l a b out :
  (forall x y, x ∈ l -> y ∈ l -> (k x = k y <-> k' x = k' y)) ->
  (forall x y, x ∈ l -> y ∈ l -> R (k x) (k y) -> R' (k' x) (k' y)) ->
  sortsTo R k l a b out -> sortsTo R' k' l a b out.
Proof.
  intros He Hi (a' & b' & w & l' & ? & ? & ? & ? & ? & ? & Hs). exists a', b', w, l'. repeat (split; [assumption|]).
  eapply stable_rekey; eassumption.
Qed.

Lemma sized_sortsTo {T} p (key : T -> N) l a b : (N.of_nat (length l) <= 2 ^ 64)%N ->
  (forall x, x ∈ l -> (key x < 2 ^ (8 * N.of_nat p))%N) -> holdsL a l -> length l <= length b ->
  sortsTo N.le key l a b (sizedSort p key (length l) a b).
Proof.
  intros H1 H2 H3 H4. destruct (sizedSort_ok p key l a b H1 H2 H3 H4) as (a' & b' & l' & H). exists a', b', (Nat.odd p), l'. exact H.
Qed.

Lemma rsort_ok (t : rty) : forall T (key : T -> rden t) l a b, sized t -> (N.of_nat (length l) <= 2 ^ 64)%N ->
  (forall x, x ∈ l -> fits t (key x)) -> holdsL a l -> length l <= length b ->
  sortsTo (rle t) key l a b (rsort t key (length l) a b).
Proof.
  induction t as [p|p|p| | |k IHk v IHv]; intros T key l a b Hsz Hn Hf Ha Hb; simpl in Hsz |- *.
  - apply sized_sortsTo; assumption.
  - eapply sortsTo_rekey; [| |apply (sized_sortsTo p (fun x => to_unsigned p (key x)) l a b Hn)]; try assumption.
    + intros x y Hx Hy. cbv beta. pose proof (to_unsigned_val p (key x) Hsz (Hf _ Hx)). pose proof (to_unsigned_val p (key y) Hsz (Hf _ Hy)).
      split; [intros E; rewrite E in *; lia|intros ->; reflexivity].
    + intros x y Hx Hy. cbv beta. pose proof (to_unsigned_val p (key x) Hsz (Hf _ Hx)). pose proof (to_unsigned_val p (key y) Hsz (Hf _ Hy)).
      simpl. lia.
    + intros x Hx. pose proof (to_unsigned_val p (key x) Hsz (Hf _ Hx)). specialize (Hf _ Hx). cbn [fits] in Hf.
      pose proof (pow8 p Hsz). apply N2Z.inj_lt. rewrite N2Z.inj_pow, N2Z.inj_mul, nat_N_Z. change (Z.of_N 2) with 2%Z. change (Z.of_N 8) with 8%Z. lia.
  - eapply sortsTo_rekey; [| |apply (sized_sortsTo p (fun x => to_unsigned_f p (key x)) l a b Hn)]; try assumption.
    + intros x y Hx Hy. cbv beta. pose proof (to_unsigned_f_val p (key x) Hsz (Hf _ Hx)) as Ex. pose proof (to_unsigned_f_val p (key y) Hsz (Hf _ Hy)) as Ey.
      split; [|intros ->; reflexivity]. intros E. rewrite E in Ex. rewrite Ex in Ey. clear E Ex. assert (E : fval p (key x) = fval p (key y)) by lia.
      clear Ey. unfold fval in E. revert E. assert (0 < 2 ^ (8 * Z.of_nat p - 1))%Z by (apply Z.pow_pos_nonneg; lia).
      destruct (Z.ltb_spec (Z.of_N (key x)) (2 ^ (8 * Z.of_nat p - 1))), (Z.ltb_spec (Z.of_N (key y)) (2 ^ (8 * Z.of_nat p - 1))); lia.
    + intros x y Hx Hy. cbv beta. pose proof (to_unsigned_f_val p (key x) Hsz (Hf _ Hx)). pose proof (to_unsigned_f_val p (key y) Hsz (Hf _ Hy)).
      simpl. lia.
    + intros x Hx. pose proof (to_unsigned_f_val p (key x) Hsz (Hf _ Hx)). specialize (Hf _ Hx). cbn [fits] in Hf.
      pose proof (pow8 p Hsz). apply N2Z.inj_lt in Hf. apply N2Z.inj_lt. rewrite N2Z.inj_pow, N2Z.inj_mul, nat_N_Z in Hf |- *. change (Z.of_N 2) with 2%Z in *. change (Z.of_N 8) with 8%Z in *.
      unfold fval in *. destruct (Z.ltb_spec (Z.of_N (key x)) (2 ^ (8 * Z.of_nat p - 1))); lia.
  - apply boolSort_ok; assumption.
  - exists a, b, false, l. do 5 (split; [reflexivity|]). split; [exact Ha|].
    eapply stable_rekey; [| |apply stable_unit]; cbv beta; [|auto].
    intros x y _ _. destruct (key x), (key y). tauto.
  - destruct Hsz as [Hk Hv].
    destruct (IHv T (fun x => (key x).2) l a b Hv Hn (fun x Hx => proj2 (Hf x Hx)) Ha Hb) as (a1 & b1 & w1 & l1 & -> & La & Lb & Da & Db & Hh & Hst).
    rewrite bind_Ok.
    assert (Hlen : length l1 = length l) by (apply Permutation_length, Hst).
    assert (Hin : forall x, x ∈ l1 -> x ∈ l) by (intros x Hx; destruct Hst as [P _]; rewrite P in Hx; exact Hx).
    destruct w1.
    + destruct (IHk T (fun x => (key x).1) l1 b1 a1) as (b2 & a2 & w2 & l2 & E & Lb2 & La2 & Db2 & Da2 & Hh2 & Hst2);
        [assumption|rewrite Hlen; assumption|intros x Hx; apply (Hf x), Hin, Hx|exact Hh|destruct Ha; lia|].
      rewrite Hlen in E, Db2, Da2. rewrite E, bind_Ok. exists a2, b2, (negb w2), l2. split; [reflexivity|].
      split; [congruence|]. split; [congruence|]. split; [congruence|]. split; [congruence|]. split; [destruct w2; exact Hh2|].
      eapply stable_rekey; [| |exact (stable_compose _ _ _ _ _ _ _ Hst Hst2)]; cbv beta.
      * intros x y _ _. destruct (key x), (key y); simpl. split; intros; congruence.
      * intros x y _ _. simpl. auto.
    + destruct (IHk T (fun x => (key x).1) l1 a1 b1) as (a2 & b2 & w2 & l2 & E & La2 & Lb2 & Da2 & Db2 & Hh2 & Hst2);
        [assumption|rewrite Hlen; assumption|intros x Hx; apply (Hf x), Hin, Hx|exact Hh|lia|].
      rewrite Hlen in E, Db2, Da2. rewrite E. exists a2, b2, w2, l2. split; [reflexivity|].
      split; [congruence|]. split; [congruence|]. split; [congruence|]. split; [congruence|]. split; [exact Hh2|].
      eapply stable_rekey; [| |exact (stable_compose _ _ _ _ _ _ _ Hst Hst2)]; cbv beta.
      * intros x y _ _. destruct (key x), (key y); simpl. split; intros; congruence.
      * intros x y _ _. simpl. auto.
Qed.

(** Every type of key, any number of elements, whatever the buffer contains: no fault; the array named by the result
    holds the elements in stable order; nothing behind the elements is touched. *)
Theorem C50_radix_sort : forall (t : rty) (T : Type) (key : T -> rden t) (l : list T) (behind buffer : list (option T)),
  sized t -> (N.of_nat (length l) <= 2 ^ 64)%N -> (forall x, x ∈ l -> fits t (key x)) -> length l <= length buffer ->
  exists a b which l', rsort t key (length l) ((Some <$> l) ++ behind) buffer = Ok (a, b, which) /\
    drop (length l) a = behind /\ drop (length l) b = drop (length l) buffer /\
    length a = length l + length behind /\ length b = length buffer /\
    take (length l) (if which then b else a) = Some <$> l' /\
    l' ≡ₚ l /\ StronglySorted (fun x y => rle t (key x) (key y)) l' /\
    (forall k, filter (fun x => key x = k) l' = filter (fun x => key x = k) l).
Proof.
  intros t T key l behind buffer Hsz Hn Hf Hb.
  destruct (rsort_ok t T key l ((Some <$> l) ++ behind) buffer Hsz Hn Hf) as (a & b & w & l' & E & La & Lb & Da & Db & [_ Hh] & P & S & F); [|exact Hb|].
  { split; [rewrite app_length, fmap_length; lia|]. intros i x Hx. apply lookup_app_l_Some. rewrite list_lookup_fmap, Hx. reflexivity. }
  exists a, b, w, l'. split; [exact E|]. rewrite app_length, fmap_length in La.
  rewrite drop_app_alt in Da by (rewrite fmap_length; reflexivity).
  do 4 (split; [assumption|]). split; [|auto].
  assert (Hlen : length l' = length l) by (apply Permutation_length, P).
  apply list_eq. intros i. rewrite list_lookup_fmap. destruct (decide (i < length l)) as [Hi|Hi].
  - rewrite lookup_take by exact Hi. destruct (lookup_lt_is_Some_2 l' i) as [x Hx]; [lia|]. rewrite Hx. apply Hh, Hx.
  - rewrite lookup_take_ge by lia. rewrite lookup_ge_None_2 by lia. reflexivity.
Qed.
Print Assumptions C50_radix_sort.

(** Unsigned keys of 2, 4 or 8 bytes (4: ExtractKey2 of outer_mult.h): the sorted elements are back in the array. *)
Theorem C50_in_place : forall (p : nat) (T : Type) (key : T -> N) (l : list T) (buffer : list (option T)),
  p ∈ [2; 4; 8] -> (N.of_nat (length l) <= 2 ^ 64)%N -> (forall x, x ∈ l -> (key x < 2 ^ (8 * N.of_nat p))%N) ->
  length l <= length buffer ->
  exists b l', rsort (RU p) key (length l) (Some <$> l) buffer = Ok (Some <$> l', b, false) /\
    l' ≡ₚ l /\ StronglySorted (fun x y => (key x <= key y)%N) l' /\
    (forall k, filter (fun x => key x = k) l' = filter (fun x => key x = k) l).
Proof.
  intros p T key l buffer Hp Hn Hk Hb.
  assert (Hodd : Nat.odd p = false) by (rewrite !elem_of_cons in Hp; destruct Hp as [-> |[-> |[-> |Hp]]]; [reflexivity..|inversion Hp]).
  destruct (sizedSort_ok p key l (Some <$> l) buffer Hn Hk) as (a & b & l' & E & La & Lb & Da & Db & [_ Hh] & P & S & F); [|exact Hb|].
  { split; [rewrite fmap_length; lia|]. intros i x Hx. rewrite list_lookup_fmap, Hx. reflexivity. }
  rewrite Hodd in E, Hh. exists b, l'. split; [|auto]. simpl. rewrite E.
  assert (Hlen : length l' = length l) by (apply Permutation_length, P). rewrite fmap_length in La.
  do 3 f_equal. apply list_eq. intros i. rewrite list_lookup_fmap. destruct (decide (i < length l)) as [Hi|Hi].
  - destruct (lookup_lt_is_Some_2 l' i) as [x Hx]; [lia|]. rewrite Hx. apply Hh, Hx.
  - rewrite !lookup_ge_None_2 by lia. reflexivity.
Qed.
Print Assumptions C50_in_place.

(** A buffer with fewer cells than there are elements is overrun. *)
Theorem C50_buffer_needed : ~ (forall (l : list N) (buffer : list (option N)),
  (forall x, x ∈ l -> (x < 2 ^ 32)%N) ->
  exists r, rsort (RU 4) (fun x => x) (length l) (Some <$> l) buffer = Ok r).
Proof.
  intros H. destruct (H [5; 3]%N [None]) as [r Hr].
  - intros x Hx. rewrite !elem_of_cons in Hx. destruct Hx as [-> |[-> |Hx]]; [lia|lia|inversion Hx].
  - vm_compute in Hr. discriminate.
Qed.
Print Assumptions C50_buffer_needed.

(** Concrete runs: keys that need all four digits, ties in their order; a pair of a signed and an unsigned key. *)
Example ex_radix4 : rsort (RU 4) fst 5 (Some <$> [(70000, 0); (3, 1); (16777217, 2); (70000, 3); (258, 4)]%N) (replicate 7 None)
  = Ok (Some <$> [(3, 1); (258, 4); (70000, 0); (70000, 3); (16777217, 2)]%N, replicate 7 None, false).
Proof. vm_compute. reflexivity. Qed.
Example ex_radix_pair : exists b, rsort (RPair (RS 1) (RU 2)) (fun x => x) 4 (Some <$> [((-1)%Z, 9%N); (4%Z, 600%N); ((-1)%Z, 2%N); (4%Z, 5%N)]) (replicate 4 None)
  = Ok (replicate 4 None, b, true) /\ b = Some <$> [((-1)%Z, 2%N); ((-1)%Z, 9%N); (4%Z, 5%N); (4%Z, 600%N)].
Proof. eexists. split; vm_compute; reflexivity. Qed.
(** 256 elements with one key: the counter of 8 bits comes back to 0 and still every element is in its place. *)
Example ex_radix_wrap : exists b, rsort (RU 4) fst 256 ((fun i => Some (7, N.of_nat i)%N) <$> seq 0 256) (replicate 256 None)
  = Ok ((fun i => Some (7, N.of_nat i)%N) <$> seq 0 256, b, false).
Proof. eexists. vm_compute. reflexivity. Qed.
