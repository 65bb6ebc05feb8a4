(** Counting sort: bucketing items by key, as done by every constructor of CSR.h / CSC.h. *)
From stdpp Require Import numbers.
From Verif Require Import MatModel BaseProofs ConcProofs ParProofs ScanProofs WorkProofs Assemble.
From Verif Require Import Base Spec.

Lemma copyRange_ok {A} (src : list A) n (dst : list A) off : n <= length src -> off + n <= length dst ->
  exists d, copyRange src n dst off = Ok d /\ length d = length dst /\
    (forall i, i < n -> d !! (off + i) = src !! i) /\
    (forall p, p < off \/ off + n <= p -> d !! p = dst !! p).
Proof.
  intros Hs Hd. unfold copyRange.
  destruct (for_inv (fun k (d : list A) => length d = length dst /\ (forall i, i < k -> d !! (off + i) = src !! i) /\
     (forall p, p < off \/ off + k <= p -> d !! p = dst !! p))
     (fun i d => x <- get src i ;; set_ d (off + i) x) 0 n dst) as (d & Hd1 & Hl & H1 & H2).
  - lia.
  - split; [reflexivity|]. split; [intros; lia|auto].
  - intros i s [_ Hi] (Hl & H1 & H2). destruct (lookup_lt_is_Some_2 src i) as [x Hx]; [lia|].
    rewrite (get_Some _ _ _ Hx), bind_Ok. rewrite set_Ok by lia. eexists. split; [reflexivity|].
    rewrite insert_length. split; [exact Hl|]. split.
    + intros j Hj. destruct (decide (j = i)) as [->|Hne].
      * rewrite list_lookup_insert by lia. symmetry. exact Hx.
      * rewrite list_lookup_insert_ne by lia. apply H1. lia.
    + intros p Hp. rewrite list_lookup_insert_ne by lia. apply H2. lia.
  - exists d. rewrite Hd1. auto.
Qed.

(** Number of elements of the list [ks] equal to [i]. *)
Definition cnt (ks : list nat) (i : nat) : nat := length (filter (fun k => k = i) ks).
Lemma cnt_app a b i : cnt (a ++ b) i = cnt a i + cnt b i.
Proof. unfold cnt. rewrite filter_app, app_length. reflexivity. Qed.
Lemma cnt_cons k ks i : cnt (k :: ks) i = (if decide (k = i) then 1 else 0) + cnt ks i.
Proof. unfold cnt. rewrite filter_cons. destruct (decide (k = i)); reflexivity. Qed.
Lemma cnt_nil i : cnt [] i = 0.
Proof. reflexivity. Qed.

Lemma list_seq_ext {A} (l : list A) (f : nat -> A) n : length l = n -> (forall i, i < n -> l !! i = Some (f i)) -> l = f <$> seq 0 n.
Proof.
  intros Hl Hf. apply list_eq. intros i. rewrite list_lookup_fmap. destruct (Nat.lt_ge_cases i n) as [Hi|Hi].
  - rewrite lookup_seq_lt by exact Hi. apply Hf, Hi.
  - rewrite !lookup_ge_None_2 by (rewrite ?seq_length; lia). reflexivity.
Qed.
Lemma seq_fmap_lookup {A} (f : nat -> A) n i : i < n -> (f <$> seq 0 n) !! i = Some (f i).
Proof. intros Hi. rewrite list_lookup_fmap, lookup_seq_lt by exact Hi. reflexivity. Qed.
Lemma seq_fmap_length {A} (f : nat -> A) n : length (f <$> seq 0 n) = n.
Proof. rewrite fmap_length, seq_length. reflexivity. Qed.
Lemma seq_fmap_insert {A} (f g : nat -> A) n i : i < n -> (forall j, j < n -> j <> i -> f j = g j) ->
  <[i := g i]> (f <$> seq 0 n) = g <$> seq 0 n.
Proof.
  intros Hi H. apply list_seq_ext; [rewrite insert_length; apply seq_fmap_length|].
  intros j Hj. destruct (decide (j = i)) as [->|Hne].
  - apply list_lookup_insert. rewrite seq_fmap_length. exact Hi.
  - rewrite list_lookup_insert_ne by congruence. rewrite seq_fmap_lookup by exact Hj. f_equal. apply H; auto.
Qed.

(** Counting. *)
Lemma bump_ok f n k : k < n -> bump (f <$> seq 0 n) k = Ok ((fun i => f i + (if decide (k = i) then 1 else 0)) <$> seq 0 n).
Proof.
  intros Hk. unfold bump. rewrite (get_Some _ _ (f k)) by (apply seq_fmap_lookup, Hk). rewrite bind_Ok.
  rewrite set_Ok by (rewrite seq_fmap_length; exact Hk). f_equal.
  rewrite <- (seq_fmap_insert f (fun i => f i + (if decide (k = i) then 1 else 0)) n k Hk).
  - rewrite decide_True by reflexivity. reflexivity.
  - intros j Hj Hne. rewrite decide_False by congruence. lia.
Qed.
Lemma replicate_seq {A} (x : A) n : replicate n x = (fun _ => x) <$> seq 0 n.
Proof. apply list_seq_ext; [apply replicate_length|]. intros i Hi. apply lookup_replicate_2, Hi. Qed.

Lemma count_fold ks n : Forall (fun k => k < n) ks ->
  foldM bump ks (replicate n 0) = Ok (cnt ks <$> seq 0 n).
Proof.
  intros Hk. rewrite replicate_seq.
  assert (H : forall f, foldM bump ks (f <$> seq 0 n) = Ok ((fun i => f i + cnt ks i) <$> seq 0 n)).
  { induction Hk as [|k ks Hk _ IH]; intros f.
    - simpl. f_equal. apply list_fmap_ext. intros. rewrite cnt_nil. lia.
    - simpl. rewrite bump_ok by exact Hk. rewrite bind_Ok, IH. f_equal. apply list_fmap_ext. intros i x Hx.
      rewrite cnt_cons. lia. }
  rewrite H. reflexivity.
Qed.

(** Prefix sums. *)
Definition psum (f : nat -> nat) (n : nat) : nat := sum_list (f <$> seq 0 n).
Lemma psum_S f n : psum f (S n) = psum f n + f n.
Proof. unfold psum. rewrite seq_S, fmap_app, sum_list_app. simpl. lia. Qed.

Lemma cumulativeSum_ok f n : cumulativeSum (f <$> seq 0 n) n = Ok (psum f <$> seq 0 n, psum f n).
Proof.
  unfold cumulativeSum.
  destruct (for_inv (fun k (s : list nat * nat) => s = ((fun i => if decide (i < k) then psum f i else f i) <$> seq 0 n, psum f k))
    (fun i '(arr, tempnz) => prev <- get arr i ;; arr' <- set_ arr i tempnz ;; Ok (arr', tempnz + prev)) 0 n (f <$> seq 0 n, 0))
    as (s & -> & ->).
  - lia.
  - f_equal; try (apply list_fmap_ext; intros i x _; rewrite decide_False by lia; reflexivity).
  - intros i s Hi ->. rewrite (get_Some _ _ (f i)).
    + rewrite bind_Ok, set_Ok by (rewrite seq_fmap_length; lia). rewrite bind_Ok. eexists. split; [reflexivity|].
      replace (i + 1) with (S i) by lia. rewrite psum_S. f_equal.
      rewrite <- (seq_fmap_insert (fun j => if decide (j < i) then psum f j else f j) (fun j => if decide (j < S i) then psum f j else f j) n i).
      * rewrite decide_True by lia. reflexivity.
      * lia.
      * intros j Hj Hne. destruct (decide (j < i)); [rewrite decide_True by lia|rewrite decide_False by lia]; reflexivity.
    + rewrite seq_fmap_lookup by lia. rewrite decide_False by lia. reflexivity.
  - f_equal. f_equal. apply list_fmap_ext. intros i x Hx. apply lookup_seq in Hx as [-> Hi]. rewrite decide_True by lia. reflexivity.
Qed.

Lemma pointers_ok f n : pointers (f <$> seq 0 n) n = Ok (psum f <$> seq 0 n, psum f <$> seq 0 (n + 1)).
Proof.
  unfold pointers. rewrite cumulativeSum_ok, bind_Ok. rewrite set_Ok by (rewrite replicate_length; lia). rewrite bind_Ok.
  destruct (copyRange_ok (psum f <$> seq 0 n) n (<[n := psum f n]> (replicate (n + 1) 0)) 0) as (d & -> & Hl & H1 & H2).
  - rewrite seq_fmap_length. lia.
  - rewrite insert_length, replicate_length. lia.
  - rewrite bind_Ok. f_equal. f_equal. apply list_seq_ext; [rewrite Hl, insert_length, replicate_length; lia|].
    intros i Hi. destruct (decide (i = n)) as [->|Hne].
    + rewrite H2 by lia. apply list_lookup_insert. rewrite replicate_length. lia.
    + rewrite <- (seq_fmap_lookup (psum f) n i) by lia. apply (H1 i). lia.
Qed.

(** ** Placing *)
Section Place.
Context {V : Type}.
Notation item := (nat * (nat * V))%type.

(** The payloads with key [i], in order. *)
Definition bucket (its : list item) (i : nat) : list (nat * V) := snd <$> filter (fun x => fst x = i) its.
Lemma bucket_app a b i : bucket (a ++ b) i = bucket a i ++ bucket b i.
Proof. unfold bucket. rewrite filter_app, fmap_app. reflexivity. Qed.
Lemma bucket_one k x i : bucket [(k, x)] i = if decide (k = i) then [x] else [].
Proof. unfold bucket. rewrite filter_cons, filter_nil. simpl. destruct (decide (k = i)); reflexivity. Qed.
Lemma bucket_cnt its i : length (bucket its i) = cnt (fst <$> its) i.
Proof.
  unfold bucket, cnt. rewrite fmap_length. induction its as [|x its IH]; [reflexivity|].
  rewrite fmap_cons, !filter_cons. destruct (decide (fst x = i)); simpl; rewrite IH; reflexivity.
Qed.
Lemma psum_pre its n : psum (cnt (fst <$> its)) n = pre (bucket its) n.
Proof. unfold psum, pre. f_equal. apply list_fmap_ext. intros. symmetry. apply bucket_cnt. Qed.
Lemma pre_total (its : list item) n : Forall (fun x => fst x < n) its -> pre (bucket its) n = length its.
Proof.
  intros H. rewrite <- psum_pre. induction its as [|x its IH].
  - simpl. unfold psum. induction n as [|n IHn]; [reflexivity|]. rewrite seq_S, fmap_app, sum_list_app. simpl.
    rewrite IHn by constructor. reflexivity.
  - apply Forall_cons in H as [Hx H]. specialize (IH H). rewrite fmap_cons. simpl. rewrite <- IH. clear IH H.
    induction n as [|n IHn]; [lia|]. rewrite !psum_S, cnt_cons. destruct (decide (fst x = n)) as [Heq|Hne].
    + assert (E : psum (cnt (fst x :: (fst <$> its))) n = psum (cnt (fst <$> its)) n).
      { unfold psum. f_equal. apply list_fmap_ext. intros i y Hy. apply lookup_seq in Hy as [-> Hy]. rewrite cnt_cons, decide_False by lia. reflexivity. }
      rewrite E. lia.
    + rewrite IHn by lia. lia.
Qed.

Lemma place1_fold_any (its : list item) n (arr0 : list (nat * V)) : Forall (fun x => fst x < n) its -> length arr0 = length its ->
  exists work', foldM (fun s x => place1 s (fst x) (snd x)) its (pre (bucket its) <$> seq 0 n, arr0)
    = Ok (work', rowsOf (bucket its) 0 n).
Proof.
  intros Hall Harr. set (B := bucket its).
  destruct (foldM_inv (fun done (s : list nat * list (nat * V)) =>
      fst s = (fun i => pre B i + length (bucket done i)) <$> seq 0 n /\ length (snd s) = length its /\
      forall i k, i < n -> k < length (bucket done i) -> snd s !! (pre B i + k) = bucket done i !! k)
    (fun s x => place1 s (fst x) (snd x)) its (pre B <$> seq 0 n, arr0)) as ([work arr] & Hf & Hw & Hl & Hk).
  - simpl. split; [|split].
    + apply list_fmap_ext. intros. lia.
    + exact Harr.
    + intros. lia.
  - intros done [k x] rest [work arr] Heq (Hw & Hl & Hk). simpl in Hw, Hl, Hk |- *. subst work.
    assert (Hkn : k < n) by (rewrite Heq, Forall_app, Forall_cons in Hall; tauto).
    assert (Hb : forall i, length (B i) = length (bucket done i) + (if decide (k = i) then 1 else 0) + length (bucket rest i)).
    { intros i. unfold B. rewrite Heq. replace (done ++ (k, x) :: rest) with (done ++ [(k, x)] ++ rest) by reflexivity.
      rewrite !bucket_app, !app_length, bucket_one. destruct (decide (k = i)); simpl; lia. }
    assert (Htot : pre B n = length its) by (apply pre_total, Hall).
    assert (Hlt : pre B k + length (bucket done k) < length its).
    { rewrite <- Htot. pose proof (pre_le B (S k) n ltac:(lia)). rewrite pre_S, (Hb k) in H. rewrite decide_True in H by reflexivity. lia. }
    unfold place1. rewrite (get_Some _ _ (pre B k + length (bucket done k))) by (rewrite seq_fmap_lookup by exact Hkn; reflexivity).
    rewrite bind_Ok, set_Ok by (rewrite seq_fmap_length; exact Hkn). rewrite bind_Ok, set_Ok by lia. rewrite bind_Ok.
    eexists. split; [reflexivity|]. simpl. split; [|split].
    + rewrite <- (seq_fmap_insert (fun i => pre B i + length (bucket done i)) (fun i => pre B i + length (bucket (done ++ [(k, x)]) i)) n k Hkn).
      * rewrite bucket_app, app_length, bucket_one, decide_True by reflexivity. simpl. f_equal. lia.
      * intros j Hj Hne. rewrite bucket_app, app_length, bucket_one, decide_False by congruence. simpl. lia.
    + rewrite insert_length. exact Hl.
    + intros i j Hi Hj. rewrite bucket_app, app_length, bucket_one in Hj. rewrite bucket_app, bucket_one.
      destruct (decide (k = i)) as [<-|Hne].
      * simpl in Hj. destruct (decide (j = length (bucket done k))) as [->|Hnj].
        -- rewrite list_lookup_insert by lia. rewrite lookup_app_r, Nat.sub_diag by lia. reflexivity.
        -- rewrite list_lookup_insert_ne by lia. rewrite lookup_app_l by lia. apply Hk; lia.
      * simpl in Hj. rewrite app_nil_r. rewrite list_lookup_insert_ne; [apply Hk; lia|].
        pose proof (Hb i) as Hbi. pose proof (Hb k) as Hbk. rewrite decide_True in Hbk by reflexivity.
        destruct (Nat.lt_ge_cases i k).
        -- pose proof (pre_le B (S i) k ltac:(lia)) as Hp. rewrite pre_S in Hp. lia.
        -- pose proof (pre_le B (S k) i ltac:(lia)) as Hp. rewrite pre_S in Hp. lia.
  - exists work. rewrite Hf. f_equal. f_equal. simpl in Hl, Hk.
    assert (Htot : pre B n = length its) by (apply pre_total, Hall).
    assert (HL : length (rowsOf B 0 n) = length its) by (rewrite rowsOf_length, pre_0, Htot by lia; lia).
    apply list_eq. intros p. destruct (Nat.lt_ge_cases p (length its)) as [Hp|Hp];
      [|rewrite !lookup_ge_None_2 by lia; reflexivity].
    assert (Hex : exists i, i < n /\ pre B i <= p < pre B (S i)).
    { rewrite <- Htot in Hp. clear -Hp. induction n as [|n IH]; [rewrite pre_0 in Hp; lia|].
      destruct (Nat.lt_ge_cases p (pre B n)) as [H|H]; [destruct (IH H) as (i & Hi & ?); exists i; split; [lia|assumption]|exists n; lia]. }
    destruct Hex as (i & Hi & Hpi). rewrite (rowsOf_lookup B i (S i) n p) by lia.
    rewrite rowsOf_S, rowsOf_nil by lia. simpl. rewrite pre_S in Hpi.
    replace p with (pre B i + (p - pre B i)) at 1 by lia. apply Hk; [lia|]. unfold B in Hpi |- *. lia.
Qed.

Lemma place1_fold (its : list item) n (d : nat * V) : Forall (fun x => fst x < n) its ->
  exists work', foldM (fun s x => place1 s (fst x) (snd x)) its (pre (bucket its) <$> seq 0 n, replicate (length its) d)
    = Ok (work', rowsOf (bucket its) 0 n).
Proof. intros Hall. apply place1_fold_any; [exact Hall|apply replicate_length]. Qed.

(** The version with separate arrays does the same. *)
Lemma place2_zip (its : list item) work ids vals work' arr :
  length ids = length vals ->
  foldM (fun s x => place1 s (fst x) (snd x)) its (work, zip ids vals) = Ok (work', arr) ->
  foldM (fun s x => place2 s (fst x) (fst (snd x)) (snd (snd x))) its (work, ids, vals) = Ok (work', fst <$> arr, snd <$> arr).
Proof.
  revert work ids vals. induction its as [|[k [c v]] its IH]; intros work ids vals Hl; simpl.
  - intros [= <- <-]. rewrite fst_zip, snd_zip by lia. reflexivity.
  - destruct (get work k) as [last|]; simpl; [|discriminate]. destruct (set_ work k (last + 1)) as [w2|]; simpl; [|discriminate].
    unfold set_. rewrite zip_with_length, Hl, Nat.min_id. destruct (Nat.ltb_spec last (length vals)); simpl; [|discriminate].
    intros Hf. apply IH; [rewrite !insert_length; exact Hl|]. rewrite <- insert_zip_with. exact Hf.
Qed.
End Place.
