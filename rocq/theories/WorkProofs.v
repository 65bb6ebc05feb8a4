(** Proofs about common.h: lower_bound, distributeWork, flop counting, scanInputs. *)
From Verif Require Import WorkModel ConcProofs BaseProofs ScanProofs Spec.

(** ** lower_bound *)
Definition nondecr (l : list nat) : Prop := forall i j a b, l !! i = Some a -> l !! j = Some b -> i <= j -> a <= b.

(** [r] is the first position whose element is at least [val] (or [n]). *)
Definition is_lower_bound (arr : list nat) (n val r : nat) : Prop :=
  r <= n /\ (forall i x, i < r -> arr !! i = Some x -> x < val) /\ (forall i x, r <= i < n -> arr !! i = Some x -> val <= x).

Lemma lower_bound_go_ok arr n val fuel first len : nondecr arr -> n <= length arr -> first + len <= n -> len <= fuel ->
  (forall i x, i < first -> arr !! i = Some x -> x < val) ->
  (forall i x, first + len <= i < n -> arr !! i = Some x -> val <= x) ->
  exists r, lower_bound_go fuel arr first len val = Ok r /\ is_lower_bound arr n val r.
Proof.
  intros Hs Hn. revert first len. induction fuel as [|fuel IH]; intros first len Hl Hf Hlo Hhi.
  - assert (len = 0) as -> by lia. exists first. split; [reflexivity|]. repeat split; [lia|exact Hlo|].
    intros i x Hi. apply Hhi. lia.
  - cbn [lower_bound_go]. destruct (Nat.eqb_spec len 0) as [->|Hne].
    { exists first. split; [reflexivity|]. repeat split; [lia|exact Hlo|]. intros i x Hi. apply Hhi. lia. }
    assert (Hh : len / 2 < len) by (apply Nat.div_lt; lia).
    destruct (lookup_lt_is_Some_2 arr (first + len / 2)) as [x Hx]; [lia|].
    rewrite (get_Some _ _ _ Hx), bind_Ok. destruct (Nat.ltb_spec x val).
    + apply IH; [lia|lia| |].
      * intros i y Hi Hy. assert (y <= x) by (eapply (Hs i (first + len / 2)); eauto; lia). lia.
      * intros i y Hi Hy. apply (Hhi i); [lia|exact Hy].
    + apply IH; [lia|lia|exact Hlo|].
      intros i y Hi Hy. assert (x <= y) by (eapply (Hs (first + len / 2) i); eauto; lia). lia.
Qed.

Lemma lower_bound_ok arr n val : nondecr arr -> n <= length arr ->
  exists r, lower_bound arr n val = Ok r /\ is_lower_bound arr n val r.
Proof. intros. apply lower_bound_go_ok; auto; lia. Qed.

Lemma is_lower_bound_mono arr n v1 v2 r1 r2 : n <= length arr -> is_lower_bound arr n v1 r1 -> is_lower_bound arr n v2 r2 -> v1 <= v2 -> r1 <= r2.
Proof.
  intros Hn (H1 & H2 & H3) (H4 & H5 & H6) Hv. destruct (decide (r1 <= r2)) as [|Hgt]; [assumption|].
  destruct (lookup_lt_is_Some_2 arr r2) as [x Hx]; [lia|].
  pose proof (H2 r2 x ltac:(lia) Hx). pose proof (H6 r2 x ltac:(lia) Hx). lia.
Qed.

(** On any array, sorted or not, the result is in range and grows with the value searched for. *)
Lemma lower_bound_go_range arr val fuel first len : first + len <= length arr -> len <= fuel ->
  exists r, lower_bound_go fuel arr first len val = Ok r /\ first <= r <= first + len.
Proof.
  revert first len. induction fuel as [|fuel IH]; intros first len Hl Hf.
  - assert (len = 0) as -> by lia. exists first. split; [reflexivity|lia].
  - cbn [lower_bound_go]. destruct (Nat.eqb_spec len 0) as [->|Hne]; [exists first; split; [reflexivity|lia]|].
    assert (Hh : len / 2 < len) by (apply Nat.div_lt; lia).
    destruct (lookup_lt_is_Some_2 arr (first + len / 2)) as [x Hx]; [lia|].
    rewrite (get_Some _ _ _ Hx), bind_Ok. destruct (Nat.ltb_spec x val).
    + destruct (IH (first + len / 2 + 1) (len - len / 2 - 1)) as (r & -> & Hr); [lia|lia|]. exists r. split; [reflexivity|lia].
    + destruct (IH first (len / 2)) as (r & -> & Hr); [lia|lia|]. exists r. split; [reflexivity|lia].
Qed.

Lemma lower_bound_go_mono arr v1 v2 fuel first len r1 r2 : v1 <= v2 -> first + len <= length arr -> len <= fuel ->
  lower_bound_go fuel arr first len v1 = Ok r1 -> lower_bound_go fuel arr first len v2 = Ok r2 -> r1 <= r2.
Proof.
  intros Hv. revert first len. induction fuel as [|fuel IH]; intros first len Hl Hf.
  - assert (len = 0) as -> by lia. simpl. intros [= <-] [= <-]. lia.
  - cbn [lower_bound_go]. destruct (Nat.eqb_spec len 0) as [->|Hne]; [intros [= <-] [= <-]; lia|].
    assert (Hh : len / 2 < len) by (apply Nat.div_lt; lia).
    destruct (lookup_lt_is_Some_2 arr (first + len / 2)) as [x Hx]; [lia|].
    rewrite (get_Some _ _ _ Hx), !bind_Ok. destruct (Nat.ltb_spec x v1), (Nat.ltb_spec x v2); try lia.
    + apply IH; lia.
    + intros H1 H2.
      destruct (lower_bound_go_range arr v1 fuel first (len / 2)) as (q1 & Hq1 & Hr1); [lia|lia|].
      destruct (lower_bound_go_range arr v2 fuel (first + len / 2 + 1) (len - len / 2 - 1)) as (q2 & Hq2 & Hr2); [lia|lia|].
      rewrite Hq1 in H1. rewrite Hq2 in H2. injection H1 as <-. injection H2 as <-. lia.
    + apply IH; lia.
Qed.

(** ** distributeWork *)
Lemma distribute_ok total accum nrows nt : nrows <= length accum -> 1 <= nt ->
  exists cut : nat -> nat, cut 0 = 0 /\ cut nt = nrows /\ (forall t, t < nt -> cut t <= cut (t + 1)) /\
    forall t, t < nt -> distributeWork total accum nrows nt t = Ok (cut t, cut (t + 1)).
Proof.
  intros Hn Hnt.
  assert (Hlb : forall v, exists r, lower_bound accum nrows v = Ok r /\ r <= nrows)
    by (intros; destruct (lower_bound_go_range accum v nrows 0 nrows) as (r & H1 & H2); [lia|lia|]; exists r; split; [exact H1|lia]).
  set (cut t := if t =? 0 then 0 else if t =? nt then nrows else
         match lower_bound accum nrows (total / nt * t) with Ok r => r | Err _ => 0 end).
  exists cut. split; [reflexivity|]. split; [unfold cut; rewrite Nat.eqb_refl; destruct (Nat.eqb_spec nt 0); [lia|reflexivity]|].
  assert (Hcut : forall t, 0 < t < nt -> lower_bound accum nrows (total / nt * t) = Ok (cut t)).
  { intros t Ht. unfold cut. destruct (Nat.eqb_spec t 0); [lia|]. destruct (Nat.eqb_spec t nt); [lia|].
    destruct (Hlb (total / nt * t)) as (r & -> & Hr). reflexivity. }
  assert (Hcn : cut nt = nrows) by (unfold cut; rewrite Nat.eqb_refl; destruct (Nat.eqb_spec nt 0); [lia|reflexivity]).
  split.
  - intros t Ht. destruct (decide (t = 0)) as [->|H0]; [unfold cut; simpl; lia|].
    pose proof (Hcut t ltac:(lia)) as Hc1.
    destruct (decide (t + 1 = nt)) as [Heq|Hne].
    + rewrite Heq, Hcn. destruct (Hlb (total / nt * t)) as (r & Hr & Hle). rewrite Hc1 in Hr. injection Hr as ->. exact Hle.
    + apply (lower_bound_go_mono accum (total / nt * t) (total / nt * (t + 1)) nrows 0 nrows); [nia|lia|lia|exact Hc1|apply Hcut; lia].
  - intros t Ht. unfold distributeWork. destruct (Nat.eqb_spec nt 0); [lia|].
    assert (Hb : (if t =? 0 then Ok 0 else lower_bound accum nrows (total / nt * t)) = Ok (cut t)).
    { destruct (Nat.eqb_spec t 0) as [->|]; [reflexivity|]. apply Hcut. lia. }
    assert (He : (if t =? nt - 1 then Ok nrows else lower_bound accum nrows (total / nt * (t + 1))) = Ok (cut (t + 1))).
    { destruct (Nat.eqb_spec t (nt - 1)) as [->|]; [replace (nt - 1 + 1) with nt by lia; congruence|]. apply Hcut. lia. }
    rewrite Hb, bind_Ok, He. reflexivity.
Qed.

Lemma cut_le (cut : nat -> nat) nt t u : (forall t, t < nt -> cut t <= cut (t + 1)) -> t <= u <= nt -> cut t <= cut u.
Proof.
  intros Hm. induction u as [|u IH]; intros Htu; [replace t with 0 by lia; lia|].
  destruct (decide (t = S u)) as [->|]; [lia|]. specialize (Hm u ltac:(lia)). rewrite Nat.add_1_r in Hm. lia.
Qed.

Lemma cut_cover (cut : nat -> nat) nt row : cut 0 = 0 -> row < cut nt -> exists t, t < nt /\ cut t <= row < cut (t + 1).
Proof.
  intros H0. induction nt as [|n IH]; intros Hr; [lia|].
  destruct (decide (row < cut n)) as [Hlt|Hge].
  - destruct (IH Hlt) as (t & Ht & Hc). exists t. split; [lia|exact Hc].
  - exists n. rewrite Nat.add_1_r. split; lia.
Qed.

Lemma distribute_partition total accum nrows nt : nrows <= length accum -> 1 <= nt ->
  (forall t, t < nt -> exists rb re, distributeWork total accum nrows nt t = Ok (rb, re) /\ rb <= re <= nrows) /\
  (forall t rb re rb' re', t + 1 < nt -> distributeWork total accum nrows nt t = Ok (rb, re) ->
     distributeWork total accum nrows nt (t + 1) = Ok (rb', re') -> re = rb') /\
  (forall row, row < nrows -> exists t, t < nt /\
     (exists rb re, distributeWork total accum nrows nt t = Ok (rb, re) /\ rb <= row < re) /\
     (forall u rb re, u < nt -> distributeWork total accum nrows nt u = Ok (rb, re) -> rb <= row < re -> u = t)).
Proof.
  intros Hn Hnt. destruct (distribute_ok total accum nrows nt Hn Hnt) as (cut & H0 & H1 & Hm & Hd).
  split; [|split].
  - intros t Ht. exists (cut t), (cut (t + 1)). split; [apply Hd, Ht|]. split; [apply Hm, Ht|].
    rewrite <- H1. apply (cut_le cut nt); [exact Hm|lia].
  - intros t rb re rb' re' Ht Ha Hb. rewrite Hd in Ha by lia. rewrite Hd in Hb by lia. congruence.
  - intros row Hr. destruct (cut_cover cut nt row H0) as (t & Ht & Hc); [lia|]. exists t. split; [exact Ht|]. split.
    + exists (cut t), (cut (t + 1)). split; [apply Hd, Ht|exact Hc].
    + intros u rb re Hu Ha Hb. rewrite Hd in Ha by exact Hu. injection Ha as <- <-.
      destruct (Nat.lt_total u t) as [Hlt|[Heq|Hlt]]; [|exact Heq|].
      * pose proof (cut_le cut nt (u + 1) t Hm ltac:(lia)). lia.
      * pose proof (cut_le cut nt (t + 1) u Hm ltac:(lia)). lia.
Qed.

(** ** The parallel loops *)
Lemma fold_add_perm l : fold_left Nat.add l 0 = sum_list l.
Proof.
  assert (H : forall acc, fold_left Nat.add l acc = acc + sum_list l).
  { induction l as [|x l IH]; intros acc; simpl; [lia|]. rewrite IH. lia. }
  rewrite H. reflexivity.
Qed.

Lemma sum_list_perm (l k : list nat) : l ≡ₚ k -> sum_list l = sum_list k.
Proof. induction 1; simpl; lia. Qed.

Lemma sum_list_app (l k : list nat) : sum_list (l ++ k) = sum_list l + sum_list k.
Proof. induction l as [|x l IH]; simpl; lia. Qed.

Section Parfor.
Variables (row : nat -> res nat) (f : nat -> nat) (nrows : nat).
Hypothesis Hrow : forall i, i < nrows -> row i = Ok (f i).

Definition pev (its : list nat) : list (@event loc (option nat)) := (fun i => EWr (0, i) (Some (f i))) <$> its.

Lemma parforThread_solo its acc m : (forall i, i ∈ its -> i < nrows) -> (forall i, i < nrows -> is_Some (m !! (0, i))) ->
  exists m', solo m (parforThread row its acc) (pev its) (acc + sum_list (f <$> its)) m'.
Proof.
  revert acc m. induction its as [|i its IH]; intros acc m Hi Hd.
  - exists m. simpl. rewrite Nat.add_0_r. constructor.
  - assert (Hlt : i < nrows) by (apply Hi; left).
    destruct (IH (acc + f i) (<[(0, i) := Some (f i)]> m)) as [m' Hs].
    + intros j Hj. apply Hi. right. exact Hj.
    + intros j Hj. destruct (decide (j = i)) as [->|Hne]; [rewrite lookup_insert; eauto|].
      rewrite lookup_insert_ne by congruence. auto.
    + exists m'. cbn [parforThread]. eapply solo_lift; [apply Hrow, Hlt|].
      unfold pev. rewrite fmap_cons. constructor; [apply Hd, Hlt|].
      rewrite fmap_cons. simpl. rewrite Nat.add_assoc. exact Hs.
Qed.

Lemma sum_join asg : sum_list ((fun its => 0 + sum_list (f <$> its)) <$> asg) = sum_list (f <$> mjoin asg).
Proof.
  induction asg as [|a asg IH]; [reflexivity|].
  rewrite fmap_cons, mjoin_cons, fmap_app, sum_list_app, <- IH. reflexivity.
Qed.

Lemma parfor_ok dst : nrows <= length dst ->
  parfor_always row nrows dst (((fun i => Some (f i)) <$> seq 0 nrows) ++ drop nrows dst) (sum_list (f <$> seq 0 nrows)).
Proof.
  intros Hd asg Hasg.
  assert (Hin : forall t its i, asg !! t = Some its -> i ∈ its -> i < nrows).
  { intros t its i Ht Hi. assert (Hm : i ∈ seq 0 nrows); [|apply elem_of_seq in Hm; lia].
    rewrite <- Hasg. apply elem_of_list_join. exists its. split; [exact Hi|]. eapply elem_of_list_lookup_2, Ht. }
  assert (Hnd : NoDup (mjoin asg)) by (rewrite Hasg; apply NoDup_seq).
  assert (Hcompat : compat (pev <$> asg)).
  { intros t u et eu l v Hne Ht Hu Hw. apply list_lookup_fmap_inv in Ht as (it & -> & Ht). apply list_lookup_fmap_inv in Hu as (iu & -> & Hu).
    apply elem_of_list_fmap in Hw as (i & Heq & Hi). simplify_eq. split.
    - intros pre post Heq. exfalso. assert (Hx : ERd (0, i) ∈ pev iu) by (rewrite Heq; apply elem_of_app; right; left).
      apply elem_of_list_fmap in Hx as (j & Hj & _). discriminate.
    - intros v' Hv. apply elem_of_list_fmap in Hv as (j & Heq & Hj). congruence. }
  assert (Hm0 : forall i, i < nrows -> is_Some (cells 0 dst !! (0, i))).
  { intros i Hi. rewrite cells_lookup. simpl. apply lookup_lt_is_Some_2. lia. }
  exists (final_mem (pev <$> asg) (cells 0 dst)), ((fun its => 0 + sum_list (f <$> its)) <$> asg).
  split; [|split; [|split]].
  - apply phase_always.
    + rewrite !fmap_length. reflexivity.
    + rewrite !fmap_length. reflexivity.
    + intros t p evs r Hp He Hr. apply list_lookup_fmap_inv in Hp as (its & -> & Hp).
      rewrite list_lookup_fmap, Hp in He. rewrite list_lookup_fmap, Hp in Hr. simplify_eq/=.
      apply parforThread_solo; [intros i Hi; eapply Hin; eauto|exact Hm0].
    + exact Hcompat.
  - rewrite app_length, fmap_length, seq_length, drop_length. lia.
  - intros i Hi. destruct (decide (i < nrows)) as [Hlt|Hge].
    + rewrite lookup_app_l by (rewrite fmap_length, seq_length; lia). rewrite list_lookup_fmap, lookup_seq_lt by lia.
      assert (Hx : i ∈ mjoin asg) by (rewrite Hasg; apply elem_of_seq; lia).
      apply elem_of_list_join in Hx as (its & Hx & Hits). apply elem_of_list_lookup in Hits as [t Ht].
      erewrite final_mem_in with (t := t) (et := pev its) (v := Some (f i)); [|exact Hcompat|rewrite list_lookup_fmap, Ht; reflexivity|apply elem_of_list_fmap; eauto].
      apply apply_evs_all; [exists (Some (f i)); apply elem_of_list_fmap; eauto|].
      intros v Hv. apply elem_of_list_fmap in Hv as (j & Heq & _). simplify_eq/=. reflexivity.
    + rewrite final_mem_notin.
      * rewrite cells_lookup. simpl. rewrite lookup_app_r by (rewrite fmap_length, seq_length; lia).
        rewrite fmap_length, seq_length, lookup_drop. f_equal. lia.
      * intros t et v Ht Hv. apply list_lookup_fmap_inv in Ht as (its & -> & Ht).
        apply elem_of_list_fmap in Hv as (j & Heq & Hj). simplify_eq. apply Hge. eapply Hin; eauto.
  - intros order Ho. rewrite fold_add_perm, (sum_list_perm _ _ Ho), sum_join. apply sum_list_perm. rewrite Hasg. reflexivity.
Qed.
End Parfor.

(** ** Row counts *)
Section Rows.
Context {V : Type}.

(** Number of products of row [i]. *)
Definition nprods (A B : csr V) (i : nat) : nat :=
  sum_list ((fun ka => length (row_entries B (fst ka))) <$> row_entries A i).

Lemma nprods_row_prods A B i : nprods A B i = length (row_prods A B i).
Proof.
  unfold nprods, row_prods. induction (row_entries A i) as [|ka l IH]; [reflexivity|].
  rewrite !fmap_cons, mjoin_cons, app_length, fmap_length. simpl. rewrite <- IH. reflexivity.
Qed.

Lemma flopsRow_ok A B i : wf A -> wf B -> cols A = rows B -> i < rows A -> flopsRow A B i = Ok (nprods A B i).
Proof.
  intros HA HB Hc Hi. unfold flopsRow. destruct (row_bounds_wf A i HA Hi) as (b & e & Hb & He & Hle & Hen & Hrb).
  rewrite Hrb, bind_Ok.
  destruct (row_loop_inv A i b e (fun done acc => acc = sum_list ((fun ka : nat * V => length (row_entries B (fst ka))) <$> done))
    (fun j acc => inner <- get (colids A) j ;; e <- get (rowptr B) (inner + 1) ;; b <- get (rowptr B) inner ;; Ok (acc + (e - b))) 0 HA Hi Hb He)
    as (s' & -> & ->); [reflexivity| |reflexivity].
  intros done j k v rest s Heq Hj Hcol Hval Hk ->.
  destruct (row_bounds_wf B k HB) as (b' & e' & Hb' & He' & Hle' & Hen' & _); [lia|].
  rewrite (get_Some _ _ _ Hcol), bind_Ok, (get_Some _ _ _ He'), bind_Ok, (get_Some _ _ _ Hb'), bind_Ok.
  eexists. split; [reflexivity|]. rewrite fmap_app, sum_list_app. simpl.
  rewrite (row_entries_length B k b' e' HB ltac:(lia) Hb' He'). lia.
Qed.

(** The count with the mask test. *)
Definition nprodsM (A B M : csr V) (i : nat) : nat := match row_cols M i with [] => 0 | _ => nprods A B i end.

Lemma flopsRowM_ok A B M i : compatible A B M -> i < rows A -> flopsRowM A B M i = Ok (nprodsM A B M i).
Proof.
  intros [HA HB HM Hc Hr Hcc] Hi. unfold flopsRowM.
  destruct (row_bounds_wf M i HM ltac:(lia)) as (b & e & Hb & He & Hle & Hen & _).
  rewrite (get_Some _ _ _ He), bind_Ok, (get_Some _ _ _ Hb), bind_Ok.
  pose proof (row_entries_length M i b e HM ltac:(lia) Hb He) as Hlen.
  pose proof (row_cols_length M i) as Hlen'. unfold nprodsM.
  destruct (Nat.eqb_spec e b).
  - destruct (row_cols M i) as [|x l]; [reflexivity|]. simpl in Hlen'. lia.
  - destruct (row_cols M i) as [|x l]; [simpl in Hlen'; lia|]. apply flopsRow_ok; auto.
Qed.

Definition workOf (A : csr V) (B : csc V) (M : csr V) (i : nat) : nat :=
  sum_list ((fun c => let a := length (row_entries A i) in let b := length (col_entries B c) in
                      if (a =? 0) || (b =? 0) then 0 else a + b) <$> row_cols M i).

Lemma workRow_ok (A M : csr V) (B : csc V) i : wf A -> wf_csc B -> wf M -> rows M = rows A -> cols M = c_cols B -> i < rows M ->
  workRow A B M i = Ok (workOf A B M i).
Proof.
  intros HA HB HM Hr Hcc Hi. unfold workRow. destruct (row_bounds_wf M i HM Hi) as (b & e & Hb & He & Hle & Hen & Hrb).
  rewrite Hrb, bind_Ok. unfold workOf, row_cols. rewrite <- list_fmap_compose.
  destruct (row_bounds_wf A i HA ltac:(lia)) as (ab & ae & Hab & Hae & Hale & Haen & _).
  pose proof (row_entries_length A i ab ae HA ltac:(lia) Hab Hae) as HlA.
  match goal with |- for_ b e ?bd 0 = _ =>
    destruct (row_loop_inv M i b e (fun done acc => acc = sum_list (((fun c => let a := length (row_entries A i) in let b := length (col_entries B c) in
                      if (a =? 0) || (b =? 0) then 0 else a + b) ∘ fst) <$> done)) bd 0 HM Hi Hb He)
    as (s' & -> & ->); [reflexivity| |reflexivity] end.
  intros done j k v rest s Heq Hj Hcol Hval Hk ->.
  destruct (row_bounds_wf (csc_tr B) k HB) as (b' & e' & Hb' & He' & Hle' & Hen' & _); [simpl; lia|].
  pose proof (row_entries_length (csc_tr B) k b' e' HB ltac:(simpl; lia) Hb' He') as HlB. simpl in Hb', He'.
  rewrite (get_Some _ _ _ Hae), bind_Ok, (get_Some _ _ _ Hab), bind_Ok, (get_Some _ _ _ Hcol), bind_Ok.
  rewrite (get_Some _ _ _ He'), bind_Ok, (get_Some _ _ _ Hb'), bind_Ok. eexists. split; [reflexivity|].
  rewrite fmap_app, sum_list_app. simpl. unfold col_entries. rewrite HlA, HlB.
  destruct (Nat.eqb_spec (ae - ab) 0), (Nat.eqb_spec (e' - b') 0); simpl; lia.
Qed.

Lemma calculateFlops_ok A B dst : wf A -> wf B -> cols A = rows B -> rows A <= length dst ->
  calculateFlops_always A B dst (((fun i => Some (nprods A B i)) <$> seq 0 (rows A)) ++ drop (rows A) dst) (sum_list (nprods A B <$> seq 0 (rows A))).
Proof. intros HA HB Hc Hd. apply parfor_ok; [|exact Hd]. intros i Hi. apply flopsRow_ok; auto. Qed.

Lemma calculateFlopsM_ok A B M dst : compatible A B M -> rows A <= length dst ->
  calculateFlopsM_always A B M dst (((fun i => Some (nprodsM A B M i)) <$> seq 0 (rows A)) ++ drop (rows A) dst) (sum_list (nprodsM A B M <$> seq 0 (rows A))).
Proof. intros HC Hd. apply parfor_ok; [|exact Hd]. intros i Hi. apply flopsRowM_ok; auto. Qed.

Lemma calculateWork_ok (A M : csr V) (B : csc V) dst : wf A -> wf_csc B -> wf M -> rows M = rows A -> cols M = c_cols B -> rows M <= length dst ->
  calculateWork_always A B M dst (((fun i => Some (workOf A B M i)) <$> seq 0 (rows M)) ++ drop (rows M) dst) (sum_list (workOf A B M <$> seq 0 (rows M))).
Proof. intros HA HB HM Hr Hc Hd. apply parfor_ok; [|exact Hd]. intros i Hi. apply workRow_ok; auto. Qed.

(** ** scanInputs *)
Lemma rowLen_ok (X : csr V) i : wf X -> i < rows X -> rowLen X i = Ok (length (row_entries X i)).
Proof.
  intros HX Hi. unfold rowLen. destruct (row_bounds_wf X i HX Hi) as (b & e & Hb & He & Hle & Hen & _).
  rewrite (get_Some _ _ _ He), bind_Ok, (get_Some _ _ _ Hb), bind_Ok, (row_entries_length X i b e HX Hi Hb He). reflexivity.
Qed.

(** What scanInputs computes over rows [rb, re). *)
Definition maxOver (f : nat -> nat) (rb re : nat) : nat := foldr Nat.max 0 (f <$> seq rb (re - rb)).
Definition sumOver (f : nat -> nat) (rb re : nat) : nat := sum_list (f <$> seq rb (re - rb)).

Lemma maxOver_S f rb i : rb <= i -> maxOver f rb (S i) = Nat.max (maxOver f rb i) (f i).
Proof.
  intros H. unfold maxOver. replace (S i - rb) with (S (i - rb)) by lia. rewrite seq_S, fmap_app, foldr_app.
  replace (rb + (i - rb)) with i by lia. simpl. rewrite Nat.max_0_r. generalize (seq rb (i - rb)) as l. clear.
  induction l as [|x l IH]; simpl; [lia|]. unfold fmap in IH. rewrite IH. lia.
Qed.
Lemma sumOver_S f rb i : rb <= i -> sumOver f rb (S i) = sumOver f rb i + f i.
Proof.
  intros H. unfold sumOver. replace (S i - rb) with (S (i - rb)) by lia. rewrite seq_S, fmap_app, sum_list_app.
  replace (rb + (i - rb)) with i by lia. simpl. lia.
Qed.
Lemma maxOver_ge f rb re i : rb <= i < re -> f i <= maxOver f rb re.
Proof.
  intros H. unfold maxOver. assert (Hi : i ∈ seq rb (re - rb)) by (apply elem_of_seq; lia).
  induction (seq rb (re - rb)) as [|x l IH]; [inversion Hi|]. simpl. apply elem_of_cons in Hi as [->|Hi]; [lia|].
  specialize (IH Hi). unfold fmap in IH. lia.
Qed.

Lemma scanInputs_ok compl cC cA cM cF rb re flops (A M : csr V) (f : nat -> nat) :
  wf A -> wf M -> rows M = rows A -> rb <= re <= rows A -> (forall i, i < rows A -> flops !! i = Some (f i)) ->
  scanInputs compl cC cA cM cF rb re flops A M = Ok
    (if cC then sumOver (fun i => if compl then f i else Nat.min (f i) (length (row_entries M i))) rb re else 0,
     if cA then maxOver (fun i => length (row_entries A i)) rb re else 0,
     if cM then maxOver (fun i => length (row_entries M i)) rb re else 0,
     if cF then maxOver f rb re else 0).
Proof.
  intros HA HM Hr Hre Hf. unfold scanInputs.
  match goal with |- for_ rb re ?bd _ = _ =>
  destruct (for_inv (fun i s => s = 
    (if cC then sumOver (fun i => if compl then f i else Nat.min (f i) (length (row_entries M i))) rb i else 0,
     if cA then maxOver (fun i => length (row_entries A i)) rb i else 0,
     if cM then maxOver (fun i => length (row_entries M i)) rb i else 0,
     if cF then maxOver f rb i else 0)) bd rb re (0, 0, 0, 0)) as (s' & -> & ->); [lia| | |reflexivity] end.
  - unfold sumOver, maxOver. rewrite Nat.sub_diag. destruct cC, cA, cM, cF; reflexivity.
  - intros i s Hi ->. eexists. split; cycle 1; [reflexivity|].
    rewrite (rowLen_ok A i HA ltac:(lia)), (rowLen_ok M i HM ltac:(lia)), (get_Some _ _ _ (Hf i ltac:(lia))).
    rewrite ?Nat.add_1_r, sumOver_S, !maxOver_S by lia.
    destruct cC, cA, cM, cF, compl; reflexivity.
Qed.
End Rows.

(** ** Wrap-around: 1 x n times n x 1, all ones, with n = 2^w. *)
Definition wrapA (n : nat) : csr nat := mkCsr 1 n n [0; n] (seq 0 n) (replicate n 1).
Definition wrapB (n : nat) : csr nat := mkCsr n 1 n (seq 0 (n + 1)) (replicate n 0) (replicate n 1).

Lemma wrapA_wf n : wf (wrapA n).
Proof.
  constructor; simpl; auto.
  - intros [|[|i]] a b; simpl; intros [=] [=]; lia.
  - apply seq_length.
  - apply replicate_length.
  - intros p c Hp. apply lookup_seq in Hp. lia.
Qed.
Lemma wrapB_wf n : wf (wrapB n).
Proof.
  constructor; cbn [rows cols nnz rowptr colids values wrapB].
  - apply seq_length.
  - rewrite Nat.add_1_r. reflexivity.
  - intros i a b Ha Hb. apply lookup_seq in Ha. apply lookup_seq in Hb. lia.
  - apply lookup_seq. lia.
  - apply replicate_length.
  - apply replicate_length.
  - intros p c Hp. apply lookup_replicate in Hp. lia.
Qed.
Lemma wrapB_len n k : k < n -> length (row_entries (wrapB n) k) = 1.
Proof.
  intros Hk. rewrite (row_entries_length (wrapB n) k k (k + 1) (wrapB_wf n)); [lia|exact Hk| |]; simpl; apply lookup_seq; lia.
Qed.
Lemma wrapA_cols n : row_cols (wrapA n) 0 = seq 0 n.
Proof.
  rewrite (row_cols_eq (wrapA n) 0 0 n (wrapA_wf n) eq_refl eq_refl). simpl. rewrite Nat.sub_0_r, drop_0.
  apply take_ge. rewrite seq_length. lia.
Qed.

Lemma wrap_nprods n : nprods (wrapA n) (wrapB n) 0 = n.
Proof.
  assert (Hall : forall l, (forall k, k ∈ fst <$> l -> k < n) ->
    sum_list ((fun ka : nat * nat => length (row_entries (wrapB n) (fst ka))) <$> l) = length l).
  { induction l as [|[k v] l IH]; intros Hl; [reflexivity|]. rewrite fmap_cons. cbn [sum_list fst]. rewrite wrapB_len, IH.
    - reflexivity.
    - intros k' Hk'. apply Hl. right. exact Hk'.
    - apply Hl. left. }
  unfold nprods. rewrite Hall.
  - rewrite <- row_cols_length, wrapA_cols. apply seq_length.
  - intros k Hk. change (k ∈ row_cols (wrapA n) 0) in Hk. rewrite wrapA_cols in Hk. apply elem_of_seq in Hk. lia.
Qed.

Lemma SSlt_seq lo n : StronglySorted lt (seq lo n).
Proof.
  revert lo. induction n as [|n IH]; intros lo; simpl; constructor; [apply IH|].
  apply Forall_forall. intros x Hx. apply elem_of_seq in Hx. lia.
Qed.

Lemma flops_wraparound : forall w : N, exists (A B : csr nat), wf A /\ wf B /\ cols A = rows B /\ sorted_rows A /\ sorted_rows B /\ 0 < rows A /\
    flopsRowW w A B 0 = Ok 0%N /\
    sum_list ((fun ka => length (row_entries B (fst ka))) <$> row_entries A 0) <> 0.
Proof.
  intros w. set (n := N.to_nat (2 ^ w)). exists (wrapA n), (wrapB n).
  split; [apply wrapA_wf|]. split; [apply wrapB_wf|]. split; [reflexivity|]. split; [|split; [|split; [simpl; lia|split]]].
  - intros i Hi. simpl in Hi. assert (i = 0) as -> by lia. rewrite wrapA_cols. apply SSlt_seq.
  - intros i Hi. simpl in Hi. pose proof (wrapB_len n i Hi) as Hl. rewrite <- row_cols_length in Hl.
    destruct (row_cols (wrapB n) i) as [|c [|c' l]]; simpl in Hl; try lia. repeat constructor.
  - unfold flopsRowW. rewrite flopsRow_ok by (auto using wrapA_wf, wrapB_wf || (simpl; lia)). rewrite bind_Ok, wrap_nprods.
    unfold n. rewrite N2Nat.id, N.mod_same by (apply N.pow_nonzero; lia). reflexivity.
  - change (nprods (wrapA n) (wrapB n) 0 <> 0). rewrite wrap_nprods. unfold n.
    pose proof (N.pow_nonzero 2 w ltac:(lia)). lia.
Qed.
