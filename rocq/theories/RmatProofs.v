(** Proofs about the counting sort and the R-MAT generator. *)
From stdpp Require Import numbers.
From Verif Require Import MatModel BaseProofs ConcProofs ScanProofs WorkProofs Assemble MatProofs MatSpec ConvProofs GtModel GtSpec GtProofs RmatModel.
From Verif Require Import Base Spec.

(** One pass, as a function. *)
Definition csort (off w : nat) (l : list (nat * nat)) : list (nat * nat) :=
  mjoin ((fun d => filter (fun x => bits (fst x) off w = d) l) <$> seq 0 (2 ^ w)).

Lemma bits_lt x k j : bits x k j < 2 ^ j.
Proof. unfold bits. apply Nat.mod_upper_bound. apply Nat.pow_nonzero. lia. Qed.

Definition digits (off w : nat) (l : list (nat * nat)) : list (nat * (nat * nat)) := (fun x => (bits (fst x) off w, x)) <$> l.
Lemma digits_bucket off w l d : bucket (digits off w l) d = filter (fun x => bits (fst x) off w = d) l.
Proof.
  unfold bucket, digits. rewrite filter_fmap, <- list_fmap_compose. simpl.
  transitivity (id <$> filter (fun x : nat * nat => bits (fst x) off w = d) l); [|apply list_fmap_id].
  reflexivity.
Qed.
Lemma csort_rowsOf off w l : rowsOf (bucket (digits off w l)) 0 (2 ^ w) = csort off w l.
Proof. unfold rowsOf, csort. rewrite Nat.sub_0_r. f_equal. apply list_fmap_ext. intros i x _. apply digits_bucket. Qed.

Lemma offsets_loop (f : nat -> nat) R :
  exists t, for_ 0 R (fun k '(mhp, offset) =>
      a <- get (f <$> seq 0 R) k ;;
      b <- get mhp k ;;
      mhp <- set_ mhp k ((a - b) + offset) ;;
      Ok (mhp, offset + a)) (f <$> seq 0 R, 0) = Ok (psum f <$> seq 0 R, t).
Proof.
  destruct (for_inv (fun k '(mhp, offset) => mhp = (fun i => if decide (i < k) then psum f i else f i) <$> seq 0 R /\ offset = psum f k)
    (fun k '(mhp, offset) =>
      a <- get (f <$> seq 0 R) k ;;
      b <- get mhp k ;;
      mhp <- set_ mhp k ((a - b) + offset) ;;
      Ok (mhp, offset + a)) 0 R (f <$> seq 0 R, 0)) as ([mhp off] & Hr & Hm & _).
  - lia.
  - split; [|reflexivity]. apply list_fmap_ext. intros i x _. rewrite decide_False by lia. reflexivity.
  - intros k [mhp off] Hk [-> ->]. rewrite (get_Some _ _ (f k)) by (apply seq_fmap_lookup; lia). rewrite bind_Ok.
    rewrite (get_Some _ _ (f k)) by (rewrite seq_fmap_lookup by lia; rewrite decide_False by lia; reflexivity). rewrite bind_Ok.
    rewrite set_Ok by (rewrite seq_fmap_length; lia). rewrite bind_Ok. eexists. split; [reflexivity|]. split.
    + replace (f k - f k + psum f k) with (psum f k) by lia.
      rewrite <- (seq_fmap_insert (fun i => if decide (i < k) then psum f i else f i) (fun i => if decide (i < k + 1) then psum f i else f i) R k).
      * rewrite decide_True by lia. reflexivity.
      * lia.
      * intros j Hj Hne. destruct (decide (j < k)); [rewrite decide_True by lia|rewrite decide_False by lia]; reflexivity.
    + rewrite Nat.add_1_r, psum_S. reflexivity.
  - exists off. rewrite Hr. f_equal. f_equal. rewrite Hm. apply list_fmap_ext. intros i x Hx. apply lookup_seq in Hx as [-> Hx]. rewrite decide_True by lia. reflexivity.
Qed.

Lemma countsortAux_ok q (keys kS aux aS : list nat) off w : length keys = q -> length kS = q -> length aux = q -> length aS = q ->
  countsortAux q keys kS aux aS (2 ^ w) off w = Ok (fst <$> csort off w (zip keys aux), snd <$> csort off w (zip keys aux)).
Proof.
  intros H1 H2 H3 H4. unfold countsortAux. set (l := zip keys aux).
  assert (Hl : length l = q) by (unfold l; rewrite zip_with_length; lia).
  assert (Hfst : fst <$> l = keys) by (apply fst_zip; lia).
  set (its := digits off w l).
  assert (Hall : Forall (fun x => fst x < 2 ^ w) its) by (apply Forall_forall; intros x Hx; apply elem_of_list_fmap in Hx as (y & -> & _); apply bits_lt).
  assert (Hlen : length its = q) by (unfold its, digits; rewrite fmap_length; exact Hl).
  rewrite (for_foldM its _ (fun m x => bump m (fst x))); [|lia|lia|].
  2:{ intros k x m _ Hx. unfold its, digits in Hx. apply list_lookup_fmap_Some in Hx as ([a b] & Hab & ->) || (rewrite list_lookup_fmap in Hx; destruct (l !! k) as [[a b]|] eqn:Hab; [|discriminate]; injection Hx as <-).
      assert (Ha : keys !! k = Some a) by (rewrite <- Hfst, list_lookup_fmap, Hab; reflexivity). rewrite (get_Some _ _ _ Ha), bind_Ok. reflexivity. }
  rewrite Nat.sub_0_r, drop_0, take_ge by lia.
  rewrite <- (foldM_fmap bump fst its). rewrite count_fold, bind_Ok by (apply Forall_fmap; exact Hall).
  destruct (offsets_loop (cnt (fst <$> its)) (2 ^ w)) as [t Ht]. cbv zeta. rewrite Ht, bind_Ok.
  rewrite (list_fmap_ext (psum (cnt (fst <$> its))) (pre (bucket its)) (seq 0 (2 ^ w))) by (intros; apply psum_pre).
  destruct (place1_fold_any its (2 ^ w) (zip kS aS) Hall) as (work' & Hf); [rewrite zip_with_length; lia|].
  apply place2_zip in Hf; [|lia].
  rewrite (for_foldM its _ (fun s x => place2 s (fst x) (fst (snd x)) (snd (snd x)))); [|lia|lia|].
  2:{ intros k x [[mhp ls] as'] _ Hx. unfold its, digits in Hx. rewrite list_lookup_fmap in Hx; destruct (l !! k) as [[a b]|] eqn:Hab; [|discriminate]; injection Hx as <-.
      assert (Ha : keys !! k = Some a) by (rewrite <- Hfst, list_lookup_fmap, Hab; reflexivity). rewrite (get_Some _ _ _ Ha), bind_Ok.
      assert (Hb : aux !! k = Some b) by (rewrite <- (snd_zip keys aux) by lia; fold l; rewrite list_lookup_fmap, Hab; reflexivity).
      unfold place2. cbn [fst snd]. destruct (get mhp (bits a off w)) as [p|]; [|reflexivity]. rewrite !bind_Ok, (get_Some _ _ _ Hb), bind_Ok.
      unfold set_. destruct (p <? length ls), (p <? length as'), (bits a off w <? length mhp); reflexivity. }
  rewrite Nat.sub_0_r, drop_0, take_ge by lia. rewrite Hf, bind_Ok. unfold its. rewrite csort_rowsOf. reflexivity.
Qed.

(** Properties of one pass. *)
Lemma csort_perm off w l : csort off w l ≡ₚ l.
Proof.
  unfold csort. apply (buckets_perm (fun x : nat * nat => bits (fst x) off w) l (2 ^ w)). apply Forall_forall. intros. apply bits_lt.
Qed.
Lemma csort_length off w l : length (csort off w l) = length l.
Proof. rewrite csort_perm. reflexivity. Qed.

Lemma mjoin_one {A} (f : nat -> list A) n k : k < n -> (forall i, i < n -> i <> k -> f i = []) -> mjoin (f <$> seq 0 n) = f k.
Proof.
  induction n as [|n IH]; intros Hk H; [lia|]. rewrite seq_S, fmap_app, mjoin_app. simpl. rewrite app_nil_r. destruct (decide (k = n)) as [->|Hn].
  - replace (mjoin (f <$> seq 0 n)) with (@nil A); [reflexivity|]. assert (G : forall j, j <= n -> mjoin (f <$> seq 0 j) = []).
    { induction j as [|j IHj]; intros Hj; [reflexivity|]. rewrite seq_S, fmap_app, mjoin_app, IHj by lia. simpl. rewrite H by lia. reflexivity. }
    symmetry. apply G. lia.
  - rewrite (H n) by lia. rewrite app_nil_r. apply IH; [lia|]. intros i Hi. apply H. lia.
Qed.

Lemma bits_mod x b w n : b + w <= n -> bits x b w = bits (x mod 2 ^ n) b w.
Proof.
  intros H. unfold bits. assert (N : forall k, 2 ^ k <> 0) by (intros; apply Nat.pow_nonzero; lia).
  assert (E : 2 ^ n = 2 ^ b * (2 ^ w * 2 ^ (n - b - w))) by (rewrite <- !Nat.pow_add_r; f_equal; lia).
  rewrite E. rewrite (Nat.mod_mul_r x (2 ^ b)) by (try apply Nat.neq_mul_0; auto).
  rewrite (Nat.mul_comm (2 ^ b) (_ mod _)), Nat.div_add by auto. rewrite (Nat.div_small (x mod 2 ^ b)) by (apply Nat.mod_upper_bound; auto).
  rewrite Nat.add_0_l, Nat.mod_mul_r by auto. rewrite (Nat.mul_comm (2 ^ w)), Nat.mod_add by auto. rewrite Nat.mod_mod by auto. reflexivity.
Qed.

Lemma csort_stable off w n l r : off + w <= n -> filter (fun x => fst x mod 2 ^ n = r) (csort off w l) = filter (fun x => fst x mod 2 ^ n = r) l.
Proof.
  intros Hn. unfold csort. rewrite filter_mjoin, <- list_fmap_compose.
  rewrite (mjoin_one _ (2 ^ w) (bits r off w)); [|apply bits_lt|].
  - simpl. rewrite list_filter_filter. apply list_filter_iff. intros x. rewrite (bits_mod (fst x) off w n Hn). split; [tauto|]. intros <-. auto.
  - intros i Hi Hne. simpl. rewrite list_filter_filter. 
    destruct (filter _ l) as [|x l'] eqn:E; [reflexivity|]. assert (Hx : x ∈ filter (λ x : nat * nat, fst x mod 2 ^ n = r ∧ bits (fst x) off w = i) l) by (rewrite E; left).
    apply elem_of_list_filter in Hx as [[Hr Hb] _]. rewrite (bits_mod (fst x) off w n Hn), Hr in Hb. congruence.
Qed.

Definition mle (n : nat) (x y : nat * nat) : Prop := fst x mod 2 ^ n <= fst y mod 2 ^ n.
Lemma SS_filter {A} (R : A -> A -> Prop) (P : A -> Prop) `{forall x, Decision (P x)} (l : list A) : StronglySorted R l -> StronglySorted R (filter P l).
Proof.
  induction l as [|x l IH]; intros Hs; [constructor|]. apply StronglySorted_inv in Hs as [Hs Hf]. rewrite filter_cons. destruct (decide (P x)); [|apply IH, Hs].
  constructor; [apply IH, Hs|]. apply Forall_forall. intros y Hy. apply elem_of_list_filter in Hy as [_ Hy]. rewrite Forall_forall in Hf. apply Hf, Hy.
Qed.
Lemma SS_weaken {A} (R S : A -> A -> Prop) (l : list A) : (forall x y, x ∈ l -> y ∈ l -> R x y -> S x y) -> StronglySorted R l -> StronglySorted S l.
Proof.
  intros H Hs. induction Hs as [|x l Hs IH Hf]; constructor; [apply IH; intros y z Hy Hz; apply H; right; assumption|].
  apply Forall_forall. intros y Hy. rewrite Forall_forall in Hf. apply H; [left|right; exact Hy|apply Hf, Hy].
Qed.
Lemma SS_mjoin {A} (R : A -> A -> Prop) (f : nat -> list A) n : (forall i, i < n -> StronglySorted R (f i)) ->
  (forall i j x y, i < j -> j < n -> x ∈ f i -> y ∈ f j -> R x y) -> StronglySorted R (mjoin (f <$> seq 0 n)).
Proof.
  induction n as [|n IH]; intros H1 H2; [constructor|]. rewrite seq_S, fmap_app, mjoin_app. simpl. rewrite app_nil_r. apply SS_app.
  - apply IH; [intros i Hi; apply H1; lia|]. intros i j x y Hij Hj. apply H2; lia.
  - apply H1. lia.
  - intros x y Hx Hy. apply elem_of_list_join in Hx as (l & Hx & Hl). apply elem_of_list_fmap in Hl as (i & -> & Hi). apply elem_of_seq in Hi. apply (H2 i n); [lia|lia|exact Hx|exact Hy].
Qed.

Lemma mod_split x b w : x mod 2 ^ (b + w) = x mod 2 ^ b + 2 ^ b * bits x b w.
Proof. rewrite Nat.pow_add_r. apply Nat.mod_mul_r; apply Nat.pow_nonzero; lia. Qed.

Lemma csort_sorted b w l : StronglySorted (mle b) l -> StronglySorted (mle (b + w)) (csort b w l).
Proof.
  intros Hs. unfold csort. apply SS_mjoin.
  - intros d Hd. apply (SS_weaken (mle b)); [|apply SS_filter, Hs]. intros x y Hx Hy. apply elem_of_list_filter in Hx as [Hx _]. apply elem_of_list_filter in Hy as [Hy _].
    unfold mle. rewrite !mod_split, Hx, Hy. lia.
  - intros i j x y Hij Hj Hx Hy. apply elem_of_list_filter in Hx as [Hx _]. apply elem_of_list_filter in Hy as [Hy _]. unfold mle. rewrite !mod_split, Hx, Hy.
    assert (fst x mod 2 ^ b < 2 ^ b) by (apply Nat.mod_upper_bound, Nat.pow_nonzero; lia). nia.
Qed.

(** A loop that writes every cell. *)
Lemma fill_loop {A} (out dst : list A) m (body : nat -> list A -> res (list A)) : length out = m -> length dst = m ->
  (forall i y d, out !! i = Some y -> length d = m -> body i d = set_ d i y) -> for_ 0 m body dst = Ok out.
Proof.
  intros Ho Hd Hb.
  destruct (for_inv (fun k d => d = take k out ++ drop k dst) body 0 m dst) as (d & -> & ->).
  - lia.
  - reflexivity.
  - intros i d Hi ->. destruct (lookup_lt_is_Some_2 out i) as [y Hy]; [lia|]. eexists. split; [|reflexivity].
    assert (L : length (take i out ++ drop i dst) = m) by (rewrite app_length, take_length, drop_length; lia).
    rewrite (Hb i y _ Hy L), set_Ok by lia. f_equal. rewrite insert_app_r_alt by (rewrite take_length; lia). rewrite take_length, Nat.min_l, Nat.sub_diag by lia.
    destruct (lookup_lt_is_Some_2 dst i) as [z Hz]; [lia|]. rewrite (drop_S dst z i Hz). simpl. rewrite Nat.add_1_r, (take_S_r out i y Hy), <- app_assoc. reflexivity.
  - rewrite take_ge, drop_ge, app_nil_r by lia. reflexivity.
Qed.

Lemma fill_two (i0 k0 : list nat) m : length i0 = m -> length k0 = m ->
  for_ 0 m (fun i '(index, keysSorted) =>
      index <- set_ index i i ;; keysSorted <- set_ keysSorted i 0 ;; Ok (index, keysSorted)) (i0, k0) = Ok (seq 0 m, replicate m 0).
Proof.
  intros Hi Hk.
  destruct (for_inv (fun k '(a, b) => a = take k (seq 0 m) ++ drop k i0 /\ b = take k (replicate m 0) ++ drop k k0)
    (fun i '(index, keysSorted) => index <- set_ index i i ;; keysSorted <- set_ keysSorted i 0 ;; Ok (index, keysSorted)) 0 m (i0, k0)) as ([a b] & -> & -> & ->).
  - lia.
  - split; reflexivity.
  - intros i [a b] H [-> ->].
    rewrite set_Ok by (rewrite app_length, take_length, drop_length, seq_length; lia). rewrite bind_Ok.
    rewrite set_Ok by (rewrite app_length, take_length, drop_length, replicate_length; lia). rewrite bind_Ok. eexists. split; [reflexivity|].
    split.
    + rewrite insert_app_r_alt by (rewrite take_length, seq_length; lia). rewrite take_length, seq_length, Nat.min_l, Nat.sub_diag by lia.
      destruct (lookup_lt_is_Some_2 i0 i) as [z Hz]; [lia|]. rewrite (drop_S i0 z i Hz). simpl. rewrite Nat.add_1_r, (take_S_r (seq 0 m) i i), <- app_assoc by (apply lookup_seq; lia). reflexivity.
    + rewrite insert_app_r_alt by (rewrite take_length, replicate_length; lia). rewrite take_length, replicate_length, Nat.min_l, Nat.sub_diag by lia.
      destruct (lookup_lt_is_Some_2 k0 i) as [z Hz]; [lia|]. rewrite (drop_S k0 z i Hz). simpl. rewrite Nat.add_1_r, (take_S_r (replicate m 0) i 0), <- app_assoc by (apply lookup_replicate; lia). reflexivity.
  - rewrite !take_ge, !drop_ge, !app_nil_r by (rewrite ?seq_length, ?replicate_length; lia). reflexivity.
Qed.

Lemma zip_eta {A B} (l : list (A * B)) : zip (fst <$> l) (snd <$> l) = l.
Proof. apply zip_fst_snd'. Qed.

Section Sort.
Context {V : Type}.
Notation edge3 := (nat * nat * V)%type.

(** All three passes. *)
Definition passes (l : list (nat * nat)) : list (nat * nat) := csort 22 10 (csort 11 11 (csort 0 11 l)).
Lemma passes_perm l : passes l ≡ₚ l.
Proof. unfold passes. rewrite !csort_perm. reflexivity. Qed.
Lemma passes_stable l r : filter (fun x => fst x mod 2 ^ 32 = r) (passes l) = filter (fun x => fst x mod 2 ^ 32 = r) l.
Proof. unfold passes. rewrite !csort_stable by lia. reflexivity. Qed.
Lemma passes_sorted l : StronglySorted (mle 32) (passes l).
Proof.
  unfold passes. apply (csort_sorted 22 10). apply (csort_sorted 11 11). apply (csort_sorted 0 11).
  induction l as [|x l IH]; constructor; [exact IH|]. apply Forall_forall. intros y _. unfold mle. rewrite !Nat.mod_1_r || (change (2 ^ 0) with 1; rewrite !Nat.mod_1_r). lia.
Qed.

(** The edge with a given number. *)
Definition pick (T : list edge3) (p : nat * nat) : list edge3 := match T !! snd p with Some t => [t] | None => [] end.

Lemma countingSort_ok (jK jI : list nat) (jW : list V) (T : list edge3) m : length T = m -> length jK = m -> length jI = m -> length jW = m ->
  exists T', countingSort jK jI jW ((fun t => fst (fst t)) <$> T) ((fun t => snd (fst t)) <$> T) (snd <$> T) m =
      Ok ((fun t => fst (fst t)) <$> T', (fun t => snd (fst t)) <$> T', snd <$> T') /\
    StronglySorted (fun x y : edge3 => fst (fst x) mod 2 ^ 32 <= fst (fst y) mod 2 ^ 32) T' /\ T' ≡ₚ T /\
    (forall r, filter (fun x => fst (fst x) mod 2 ^ 32 = r) T' = filter (fun x => fst (fst x) mod 2 ^ 32 = r) T).
Proof.
  intros HT HK HI HW. set (keys := (fun t : edge3 => fst (fst t)) <$> T).
  assert (Lk : length keys = m) by (unfold keys; rewrite fmap_length; exact HT).
  set (P := passes (zip keys (seq 0 m))).
  assert (LP : length P = m) by (unfold P; rewrite passes_perm, zip_with_length, seq_length; lia).
  assert (InP : forall x k, (x, k) ∈ P -> exists t, T !! k = Some t /\ fst (fst t) = x).
  { intros x k Hp. unfold P in Hp. rewrite passes_perm in Hp. apply elem_of_list_lookup in Hp as [i Hi].
    apply lookup_zip_with_Some in Hi as (a & b & E & Ha & Hb). injection E as <- <-. apply lookup_seq in Hb as [-> Hb].
    unfold keys in Ha. rewrite list_lookup_fmap in Ha. simpl. destruct (T !! i) as [t|]; [|discriminate]. injection Ha as <-. eauto. }
  assert (exists T', length T' = m /\ forall i, T' !! i = p ← P !! i; T !! snd p) as (T' & LT' & HT').
  { assert (G : forall Q : list (nat * nat), (forall x k, (x, k) ∈ Q -> exists t, T !! k = Some t) -> exists T', length T' = length Q /\ forall i, T' !! i = p ← Q !! i; T !! snd p).
    { induction Q as [|[x k] Q IH]; intros H; [exists []; split; [reflexivity|intros i; reflexivity]|].
      destruct IH as (T' & L & HH); [intros y j Hj; apply (H y j); right; exact Hj|]. destruct (H x k) as [t Ht]; [left|].
      exists (t :: T'). split; [simpl; lia|]. intros [|i]; [simpl; rewrite Ht; reflexivity|]. simpl. apply HH. }
    destruct (G P) as (T' & L & HH); [intros x k Hxk; destruct (InP x k Hxk) as (t & Ht & _); eauto|]. exists T'. split; [lia|exact HH]. }
  assert (LookP : forall i x k, P !! i = Some (x, k) -> exists t, T' !! i = Some t /\ T !! k = Some t /\ fst (fst t) = x).
  { intros i x k Hi. destruct (InP x k) as (t & Ht & Hx); [eapply elem_of_list_lookup_2, Hi|]. exists t. rewrite HT', Hi. simpl. auto. }
  assert (KeysT' : (fun t : edge3 => fst (fst t)) <$> T' = fst <$> P).
  { apply list_eq. intros i. rewrite !list_lookup_fmap. destruct (P !! i) as [[x k]|] eqn:E.
    - destruct (LookP i x k E) as (t & -> & _ & <-). reflexivity.
    - rewrite HT', E. reflexivity. }
  assert (EP : T' = P ≫= pick T).
  { assert (G : forall (Q : list (nat * nat)) (T' : list edge3), length T' = length Q -> (forall i, T' !! i = p ← Q !! i; T !! snd p) -> T' = Q ≫= pick T).
    { clear. induction Q as [|p Q IH]; intros [|t T''] HL H; try discriminate; [reflexivity|]. pose proof (H 0) as H0. simpl in H0. rewrite bind_cons. unfold pick at 1. rewrite <- H0. simpl. f_equal.
      apply IH; [simpl in HL; lia|]. intros i. apply (H (S i)). }
    apply G; [lia|exact HT']. }
  assert (Id0 : zip keys (seq 0 m) ≫= pick T = T).
  { assert (G : forall l pre0, T = pre0 ++ l -> zip ((fun t : edge3 => fst (fst t)) <$> l) (seq (length pre0) (length l)) ≫= pick T = l).
    { clear. induction l as [|t l IH]; intros pre0 E; [reflexivity|]. rewrite fmap_cons. cbn [length seq zip zip_with]. rewrite bind_cons. unfold pick at 1. simpl snd.
      replace (T !! length pre0) with (Some t) by (rewrite E, lookup_app_r, Nat.sub_diag by lia; reflexivity). simpl. f_equal. specialize (IH (pre0 ++ [t])). rewrite app_length in IH. simpl in IH.
      replace (length pre0 + 1) with (S (length pre0)) in IH by lia. apply IH. rewrite E, <- app_assoc. reflexivity. }
    pose proof (G T [] eq_refl) as G0. rewrite HT in G0. exact G0. }
  assert (FB : forall (Q : list (nat * nat)) r, (forall x k, (x, k) ∈ Q -> exists t, T !! k = Some t /\ fst (fst t) = x) ->
    filter (fun x : edge3 => fst (fst x) mod 2 ^ 32 = r) (Q ≫= pick T) = filter (fun x => fst x mod 2 ^ 32 = r) Q ≫= pick T).
  { clear. induction Q as [|[x k] Q IH]; intros r H; [reflexivity|]. destruct (H x k) as (t & Ht & Hx); [left|]. rewrite bind_cons, filter_app, filter_cons.
    assert (E : pick T (x, k) = [t]) by (unfold pick; simpl; rewrite Ht; reflexivity). rewrite E, IH by (intros y j Hj; apply (H y j); right; exact Hj).
    rewrite filter_cons, filter_nil, Hx. simpl fst. destruct (decide (x mod 2 ^ 32 = r)); [rewrite bind_cons, E|]; reflexivity. }
  exists T'. split; [|split; [|split]].
  - unfold countingSort. rewrite fill_two by assumption. rewrite bind_Ok.
    rewrite countsortAux_ok by first [assumption|apply seq_length|apply replicate_length]. rewrite bind_Ok.
    assert (L1 : length (csort 0 11 (zip keys (seq 0 m))) = m) by (rewrite csort_length, zip_with_length, seq_length; lia).
    rewrite countsortAux_ok by first [assumption|apply seq_length|rewrite fmap_length; assumption]. rewrite bind_Ok, zip_eta.
    assert (L2 : length (csort 11 11 (csort 0 11 (zip keys (seq 0 m)))) = m) by (rewrite csort_length; exact L1).
    rewrite countsortAux_ok by (rewrite ?zip_eta, fmap_length; assumption). rewrite bind_Ok, zip_eta. fold (passes (zip keys (seq 0 m))). fold P.
    rewrite (fill_loop (fst <$> P)); [|rewrite fmap_length; lia|rewrite fmap_length; lia|].
    2:{ intros i y d Hy _. rewrite (get_Some _ _ _ Hy). reflexivity. }
    rewrite bind_Ok. unfold gather.
    rewrite (fill_loop ((fun t : edge3 => snd (fst t)) <$> T')); [|rewrite fmap_length; lia|rewrite fmap_length; lia|].
    2:{ intros i y d Hy _. rewrite list_lookup_fmap in Hy. destruct (P !! i) as [[x k]|] eqn:E.
        - destruct (LookP i x k E) as (t & Ht & Hk & _). rewrite Ht in Hy. injection Hy as <-.
          rewrite (get_Some _ _ k) by (rewrite list_lookup_fmap, E; reflexivity). rewrite bind_Ok. rewrite (get_Some _ _ (snd (fst t))) by (rewrite list_lookup_fmap, Hk; reflexivity). reflexivity.
        - rewrite HT', E in Hy. discriminate. }
    rewrite bind_Ok. rewrite (fill_loop ((fun t : edge3 => snd (fst t)) <$> T')); [|rewrite fmap_length; lia|rewrite fmap_length; lia|].
    2:{ intros i y d Hy _. rewrite (get_Some _ _ _ Hy). reflexivity. }
    rewrite bind_Ok. rewrite (fill_loop (snd <$> T')); [|rewrite fmap_length; lia|lia|].
    2:{ intros i y d Hy _. rewrite list_lookup_fmap in Hy. destruct (P !! i) as [[x k]|] eqn:E.
        - destruct (LookP i x k E) as (t & Ht & Hk & _). rewrite Ht in Hy. injection Hy as <-.
          rewrite (get_Some _ _ k) by (rewrite list_lookup_fmap, E; reflexivity). rewrite bind_Ok. rewrite (get_Some _ _ (snd t)) by (rewrite list_lookup_fmap, Hk; reflexivity). reflexivity.
        - rewrite HT', E in Hy. discriminate. }
    rewrite bind_Ok. rewrite (fill_loop (snd <$> T')); [|rewrite fmap_length; lia|rewrite fmap_length; lia|].
    2:{ intros i y d Hy _. rewrite (get_Some _ _ _ Hy). reflexivity. }
    rewrite bind_Ok, KeysT'. reflexivity.
  - assert (S1 : StronglySorted (fun x y => x mod 2 ^ 32 <= y mod 2 ^ 32) (fst <$> P)).
    { pose proof (passes_sorted (zip keys (seq 0 m))) as Hs. fold P in Hs. clear -Hs. induction Hs as [|x l Hs IH Hf]; [constructor|]. rewrite fmap_cons. constructor; [exact IH|]. rewrite Forall_fmap. exact Hf. }
    rewrite <- KeysT' in S1. clear -S1. induction T' as [|t l IH]; [constructor|]. rewrite fmap_cons in S1. apply StronglySorted_inv in S1 as [S1 Hf]. constructor; [apply IH, S1|]. rewrite Forall_fmap in Hf. exact Hf.
  - rewrite EP. unfold P. rewrite passes_perm. rewrite Id0. reflexivity.
  - intros r. rewrite EP, (FB P r InP). unfold P. rewrite passes_stable. rewrite <- (FB (zip keys (seq 0 m)) r).
    + rewrite Id0. reflexivity.
    + intros x k Hxk. apply InP. unfold P. rewrite passes_perm. exact Hxk.
Qed.
End Sort.
