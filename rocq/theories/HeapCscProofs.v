(** HeapSpGEMM on compressed columns: the whole function. *)
From stdpp Require Import numbers.
From Coq Require Import NArith.
From Verif Require Import KernelBase BaseProofs ConcProofs ScanProofs WorkModel WorkProofs Assemble DriverModel DriverBase ParProofs IsectProofs MatStatements
  LegacyScanModel LegacyScanProofs TwoPassModel TwoPassProofs BinProofs AlgProofs HeapModel HeapImplProofs DriverProofs HeapCscModel HeapCscRowProofs.
From Verif Require Import Base Spec.

(** A parallel loop whose iteration [i] stores [v i] to cell [i + d] of an array. *)
Lemma fill_ok (a d n : nat) (body : nat -> prog loc nat unit) (v : nat -> nat) (l0 l' : list nat) :
  (forall i m, i < n -> is_Some (m !! (a, i + d)) -> solo m (body i) [EWr (a, i + d) (v i)] tt (<[(a, i + d) := v i]> m)) ->
  n + d <= length l0 -> (forall j, l' !! j = if decide (d <= j < n + d) then Some (v (j - d)) else l0 !! j) ->
  parfor_ends body n (cells a l0) (cells a l') /\ parfor_race_free body n (cells a l0).
Proof.
  intros Hb Hl Hl'.
  set (evs := fun t : nat => [EWr (L := loc) (a, t + d) (v t)]).
  set (own := fun t (l : loc) => l = (a, t + d)). set (wv := fun l : loc => Some (v (snd l - d))).
  assert (Hsolo : forall i m, i < n -> (forall l, is_Some (m !! l) <-> is_Some (cells a l0 !! l)) ->
    (forall l, own i l \/ (forall j, j < n -> ~ own j l) -> m !! l = cells a l0 !! l) -> exists mf, solo m (body i) (evs i) tt mf).
  { intros i m Hi Hd _. eexists. apply Hb; [exact Hi|]. apply Hd. rewrite cells_lookup, decide_True by reflexivity. apply lookup_lt_is_Some_2. lia. }
  assert (Hw : forall i l x, i < n -> EWr l x ∈ evs i -> own i l /\ wv l = Some x).
  { intros i l x _ Hin. apply elem_of_list_singleton in Hin. injection Hin as -> ->. split; [reflexivity|]. unfold wv. cbn [snd]. rewrite Nat.add_sub. reflexivity. }
  assert (Hr : forall i j l, i < n -> j < n -> ERd l ∈ evs i -> own j l -> j = i) by (intros i j l _ _ Hin; apply elem_of_list_singleton in Hin; discriminate).
  assert (Ha : forall i j l, i < n -> j < n -> EAny l ∈ evs i -> own j l -> j = i) by (intros i j l _ _ Hin; apply elem_of_list_singleton in Hin; discriminate).
  assert (Hx : forall i j l, i < n -> j < n -> own i l -> own j l -> i = j) by (unfold own; intros i j l _ _ -> [= H]; lia).
  split; [|exact (parfor_owned_race _ n _ evs own wv Hsolo Hw Hr Ha Hx)].
  destruct (parfor_owned _ n _ evs own wv Hsolo Hw Hr Ha Hx) as (m' & Hend & Hwr & Hkp).
  replace (cells a l') with m'; [exact Hend|]. apply map_eq. intros [b j].
  rewrite cells_lookup. destruct (decide (b = a)) as [->|Hne].
  - rewrite Hl'. destruct (decide (d <= j < n + d)) as [Hj|Hj].
    + apply (Hwr (j - d)); [lia|]. unfold evs. replace (j - d + d) with j by lia. left.
    + rewrite Hkp; [rewrite cells_lookup, decide_True by reflexivity; reflexivity|].
      intros t x Ht Hin. apply elem_of_list_singleton in Hin. injection Hin as E1 E2. lia.
  - rewrite Hkp; [rewrite cells_lookup, decide_False by exact Hne; reflexivity|].
    intros t x Ht Hin. apply elem_of_list_singleton in Hin. injection Hin as E1 E2. congruence.
Qed.

Lemma wsum_sumOver f a b : a <= b -> wsum f b = wsum f a + sumOver f a b.
Proof.
  intros H. unfold wsum, sumOver. replace b with (a + (b - a)) at 1 by lia. rewrite seq_app, fmap_app, sum_list_app. reflexivity.
Qed.

Section Driver.
Context {V : Type} (mul add : V -> V -> V) (dflt : V) (A B : csc V) (R : nat -> list (nat * V)).
Notation X := (csc_tr B).
Notation Y := (csc_tr A).
Notation n := (c_cols B).
Notation f := (nprods X Y).
Notation S := (wsum f).
Hypotheses (HA : wf_csc A) (HB : wf_csc B) (Hin : c_rows B = c_cols A) (Hn : 1 <= n) (HN : (N.of_nat (n + 1) < 2 ^ 17)%N).
Hypothesis HRlen : forall i, i < n -> length (R i) <= f i.
Hypothesis HR : forall i cs ct cap st base L, i < n -> length (col_entries B i) <= cap -> cs !! i = Some st -> cs !! ct = Some base -> base <= st ->
  st - base + f i <= length (lo_ids L) -> st - base + f i <= length (lo_vals L) ->
  exists L', heapCol mul add A B cs ct cap i st L = Ok (st + length (R i), L') /\ crep (st - base) (f i) L L' (R i).
Context (nt : nat) (Hnt : 1 <= nt).

Definition cflops : list nat := f <$> seq 0 n.
Definition cstart : list nat := S <$> seq 0 n.
Definition cends : list nat := (fun i => S i + length (R i)) <$> seq 0 n.

Lemma flopsCol_row i : flopsCol A B i = flopsRow X Y i.
Proof.
  unfold flopsCol, flopsRow, KernelBase.row_bounds. cbn [csc_tr rowptr colids].
  destruct (get (colptr B) i); [|reflexivity]. simpl. destruct (get (colptr B) (i + 1)); reflexivity.
Qed.
Lemma cflops_ok : parfor_always (flopsCol A B) n (replicate n (Some 0)) (Some <$> cflops) (S n).
Proof.
  assert (H : forall i, i < n -> flopsCol A B i = Ok (f i)).
  { intros i Hi. rewrite flopsCol_row. apply flopsRow_ok; assumption. }
  pose proof (parfor_ok (flopsCol A B) f n H (replicate n (Some 0))) as P.
  rewrite drop_ge, app_nil_r in P by (rewrite replicate_length; lia). rewrite fmap_Some_seq in P.
  apply P. rewrite replicate_length. lia.
Qed.

Lemma cstart_at i : i < n -> cstart !! i = Some (S i).
Proof. intros Hi. unfold cstart. rewrite seq_at, decide_True by exact Hi. reflexivity. Qed.
Lemma cstart_len : length cstart = n.
Proof. unfold cstart. rewrite fmap_length, seq_length. reflexivity. Qed.
Lemma cends_at i : i < n -> cends !! i = Some (S i + length (R i)).
Proof. intros Hi. unfold cends. rewrite seq_at, decide_True by exact Hi. reflexivity. Qed.

Lemma cscan_ok top nts : lScan_always 0 Nat.add top cflops n nts (<[0 := Some 0]> (replicate n (Some 0))) (Some <$> cstart).
Proof.
  unfold lScan_always, lIsSeq. assert (HN' : (N.of_nat n < 2 ^ 17)%N) by lia. rewrite (proj2 (N.ltb_lt _ _) HN'). rewrite seqScan_ok; try (intros; lia).
  - rewrite drop_ge by (rewrite insert_length, replicate_length; lia). rewrite app_nil_r. f_equal. unfold cstart. rewrite <- list_fmap_compose.
    apply list_eq. intros i. rewrite !seq_at. destruct (decide (i < n)); [|reflexivity]. simpl. unfold cflops. rewrite psum_wsum by lia. reflexivity.
  - unfold cflops. rewrite fmap_length, seq_length. lia.
  - rewrite insert_length, replicate_length. lia.
Qed.

Lemma cend_region : parfor_ends (endBody cstart) (n - 1) (cells aEnd (<[0 := 0]> (replicate n 0))) (cells aEnd cstart) /\
  parfor_race_free (endBody cstart) (n - 1) (cells aEnd (<[0 := 0]> (replicate n 0))).
Proof.
  apply (fill_ok aEnd 1 (n - 1) _ (fun i => S (i + 1))).
  - intros i m Hi Hm. unfold endBody. eapply solo_lift; [apply get_Some, cstart_at; lia|]. apply solo_wr; [exact Hm|constructor].
  - rewrite insert_length, replicate_length. lia.
  - intros j. unfold cstart. rewrite seq_at. destruct (decide (1 <= j < n - 1 + 1)) as [Hj|Hj].
    + rewrite decide_True by lia. replace (j - 1 + 1) with j by lia. reflexivity.
    + destruct (decide (j < n)) as [Hjn|Hjn].
      * replace j with 0 by lia. rewrite list_lookup_insert by (rewrite replicate_length; lia). reflexivity.
      * symmetry. apply lookup_ge_None_2. rewrite insert_length, replicate_length. lia.
Qed.

(** *** The ranges of columns *)
Notation fpt := ((S n * 2) / 2 / nt).
Definition clb (v : nat) : nat := match lower_bound cstart n v with Ok r => r | Err _ => 0 end.
Definition ccut (t : nat) : nat := if t =? 0 then 0 else if t =? nt then n else clb (fpt * t).
Definition ccuts : list nat := ccut <$> seq 0 (nt + 1).

Lemma clb_ok v : lower_bound cstart n v = Ok (clb v) /\ is_lower_bound cstart n v (clb v).
Proof.
  destruct (lower_bound_ok cstart n v) as (r & E & H); [apply wsum_nondecr|rewrite cstart_len; lia|].
  unfold clb. rewrite E. auto.
Qed.
Lemma clb_mono v w : v <= w -> clb v <= clb w.
Proof. intros H. eapply is_lower_bound_mono; [|apply clb_ok|apply clb_ok|exact H]. rewrite cstart_len. lia. Qed.
Lemma clb_le v : clb v <= n.
Proof. apply (clb_ok v). Qed.
Lemma ccut_0 : ccut 0 = 0. Proof. reflexivity. Qed.
Lemma ccut_nt : ccut nt = n.
Proof. unfold ccut. rewrite Nat.eqb_refl. destruct (Nat.eqb_spec nt 0); [lia|reflexivity]. Qed.
Lemma ccut_m t : t < nt -> ccut t <= ccut (t + 1).
Proof.
  intros Ht. unfold ccut. destruct (Nat.eqb_spec t 0); [lia|]. destruct (Nat.eqb_spec t nt); [lia|].
  destruct (Nat.eqb_spec (t + 1) 0); [lia|]. destruct (Nat.eqb_spec (t + 1) nt); [apply clb_le|]. apply clb_mono. nia.
Qed.
Lemma ccut_le t : t <= nt -> ccut t <= n.
Proof. intros Ht. rewrite <- ccut_nt. apply (cut_le ccut nt); [apply ccut_m|lia]. Qed.
Lemma ccuts_at t : t <= nt -> ccuts !! t = Some (ccut t).
Proof. intros Ht. unfold ccuts. rewrite seq_at, decide_True by lia. reflexivity. Qed.

Definition ccuts1 : list nat := (fun t => if t =? 0 then 0 else clb (fpt * t)) <$> seq 0 (nt + 1).
Lemma ccut_region : parfor_ends (cutBody cstart n fpt) nt (cells aCut (<[0 := 0]> (replicate (nt + 1) 0))) (cells aCut ccuts1) /\
  parfor_race_free (cutBody cstart n fpt) nt (cells aCut (<[0 := 0]> (replicate (nt + 1) 0))).
Proof.
  apply (fill_ok aCut 1 nt _ (fun t => clb (fpt * (t + 1)))).
  - intros i m Hi Hm. unfold cutBody. eapply solo_lift; [apply clb_ok|]. apply solo_wr; [exact Hm|constructor].
  - rewrite insert_length, replicate_length. lia.
  - intros j. unfold ccuts1. rewrite seq_at. destruct (decide (1 <= j < nt + 1)) as [Hj|Hj].
    + rewrite decide_True by lia. replace (j - 1 + 1) with j by lia. destruct (Nat.eqb_spec j 0); [lia|reflexivity].
    + destruct (decide (j < nt + 1)) as [Hjn|Hjn].
      * replace j with 0 by lia. rewrite list_lookup_insert by (rewrite replicate_length; lia). reflexivity.
      * symmetry. apply lookup_ge_None_2. rewrite insert_length, replicate_length. lia.
Qed.
Lemma ccuts_set : set_ ccuts1 nt n = Ok ccuts.
Proof.
  rewrite set_Ok by (unfold ccuts1; rewrite fmap_length, seq_length; lia). f_equal. apply list_eq. intros i. unfold ccuts. rewrite seq_at.
  destruct (decide (i = nt)) as [->|Hne].
  - rewrite list_lookup_insert by (unfold ccuts1; rewrite fmap_length, seq_length; lia). rewrite decide_True by lia. rewrite ccut_nt. reflexivity.
  - rewrite list_lookup_insert_ne by congruence. unfold ccuts1. rewrite seq_at. destruct (decide (i < nt + 1)); [|reflexivity].
    unfold ccut. destruct (i =? 0); [reflexivity|]. destruct (Nat.eqb_spec i nt); [contradiction|reflexivity].
Qed.

(** *** The numeric region *)
(** The local arrays of thread [t] once its columns below [k] are done. *)
Record lok (t k : nat) (L : lout V) : Prop := mkLok {
  lk_ids : length (lo_ids L) = S (ccut (t + 1)) - S (ccut t);
  lk_vals : length (lo_vals L) = S (ccut (t + 1)) - S (ccut t);
  lk_cell : forall j p c v, ccut t <= j < k -> R j !! p = Some (c, v) ->
    lo_ids L !! (S j - S (ccut t) + p) = Some c /\ lo_vals L !! (S j - S (ccut t) + p) = Some (Some v) }.

Notation ev := (@event loc nat).
Definition evC (i : nat) : list ev := [ERd (aEnd, i); EWr (aEnd, i) (S i + length (R i))].
Definition evT (t : nat) : list ev := mjoin (evC <$> seq (ccut t) (ccut (t + 1) - ccut t)).

Lemma colLens t : t < nt -> for_ (ccut t) (ccut (t + 1)) (fun i mx => e <- get (colptr B) (i + 1) ;; b <- get (colptr B) i ;; Ok (if mx <? e - b then e - b else mx)) 0 =
  Ok (maxOver (fun i => length (col_entries B i)) (ccut t) (ccut (t + 1))).
Proof.
  intros Ht. pose proof (ccut_m t Ht). pose proof (ccut_le (t + 1) ltac:(lia)).
  destruct (for_inv (fun i mx => mx = maxOver (fun i => length (col_entries B i)) (ccut t) i)
    (fun i mx => e <- get (colptr B) (i + 1) ;; b <- get (colptr B) i ;; Ok (if mx <? e - b then e - b else mx)) (ccut t) (ccut (t + 1)) 0) as (r & -> & ->); auto.
  - unfold maxOver. rewrite Nat.sub_diag. reflexivity.
  - intros i mx Hi ->. destruct (row_bounds_wf X i HB ltac:(cbn; lia)) as (b & e & Hb & He & _).
    pose proof (row_entries_length X i b e HB ltac:(cbn; lia) Hb He) as Hl. cbn [csc_tr rowptr] in Hb, He.
    rewrite (get_Some _ _ _ He), bind_Ok, (get_Some _ _ _ Hb), bind_Ok. eexists. split; [reflexivity|].
    rewrite Nat.add_1_r, maxOver_S by lia. unfold col_entries. rewrite Hl. destruct (Nat.ltb_spec (maxOver (fun i => length (row_entries X i)) (ccut t) i) (e - b)); lia.
Qed.
Lemma colSum t : t < nt -> for_ (ccut t) (ccut (t + 1)) (fun i s => x <- get cflops i ;; Ok (s + x)) 0 = Ok (S (ccut (t + 1)) - S (ccut t)).
Proof.
  intros Ht. pose proof (ccut_m t Ht). pose proof (ccut_le (t + 1) ltac:(lia)).
  destruct (for_inv (fun i s => s = S i - S (ccut t)) (fun i s => x <- get cflops i ;; Ok (s + x)) (ccut t) (ccut (t + 1)) 0) as (r & -> & ->); auto.
  - lia.
  - intros i s Hi ->. unfold cflops. erewrite get_Some by (rewrite seq_at, decide_True by lia; reflexivity). rewrite bind_Ok.
    eexists. split; [reflexivity|]. pose proof (wsum_le f (ccut t) i ltac:(lia)). rewrite Nat.add_1_r, wsum_S. lia.
Qed.

Lemma thread_solo t : t < nt -> exists L mf, solo (cells aEnd cstart) (heapThread mul add A B cflops cstart ccuts t) (evT t) L mf /\ lok t (ccut (t + 1)) L.
Proof.
  intros Ht. pose proof (ccut_m t Ht) as Hm. pose proof (ccut_le (t + 1) ltac:(lia)) as Hle.
  set (cap := maxOver (fun i => length (col_entries B i)) (ccut t) (ccut (t + 1))).
  set (nn := S (ccut (t + 1)) - S (ccut t)).
  set (body := fun i L => Rd (aEnd, i) (fun en => pbind (lift (heapCol mul add A B cstart (ccut t) cap i en L)) (fun '(en, L) => Wr (aEnd, i) en (Ret L)))).
  set (Inv := fun i L (m : gmap loc nat) => lok t i L /\ forall j, i <= j < n -> m !! (aEnd, j) = Some (S j)).
  assert (Hloop : exists L m', solo (cells aEnd cstart) (pfor_n (ccut (t + 1) - ccut t) (ccut t) body (mkLout (replicate nn 0) (replicate nn None))) (evT t) L m' /\
    Inv (ccut t + (ccut (t + 1) - ccut t)) L m').
  { apply solo_pfor_n.
    - intros i L m Hi [[L1 L2 L3] Hmem]. assert (Hin' : i < n) by lia.
      pose proof (wsum_le f (ccut t) i ltac:(lia)) as W1. pose proof (wsum_le f (i + 1) (ccut (t + 1)) ltac:(lia)) as W2.
      rewrite Nat.add_1_r, wsum_S in W2.
      destruct (HR i cstart (ccut t) cap (S i) (S (ccut t)) L Hin') as (L' & HC & [C1 C2 C3 C4 C5]).
      { apply (maxOver_ge (fun i => length (col_entries B i))). lia. }
      { apply cstart_at, Hin'. }
      { apply cstart_at. lia. }
      { exact W1. }
      { lia. }
      { lia. }
      exists L', (<[(aEnd, i) := S i + length (R i)]> m). split.
      + unfold body, evC. eapply solo_rd; [apply Hmem; lia|]. eapply solo_lift; [exact HC|]. cbn beta iota.
        apply solo_wr; [rewrite Hmem by lia; eauto|constructor].
      + split.
        * split; [congruence|congruence|]. intros j p c v Hj Hp. destruct (decide (j = i)) as [->|Hne].
          -- replace (S i - S (ccut t) + p) with (S i - S (ccut t) + p) by lia. apply C4, Hp.
          -- pose proof (lookup_lt_Some _ _ _ Hp) as Hpl. pose proof (HRlen j ltac:(lia)) as Hjl.
             pose proof (wsum_le f (j + 1) i ltac:(lia)) as W3. rewrite Nat.add_1_r, wsum_S in W3.
             pose proof (wsum_le f (ccut t) j ltac:(lia)) as W4.
             destruct (C5 (S j - S (ccut t) + p)) as [-> ->]; [lia|]. apply L3; [lia|exact Hp].
        * intros j Hj. rewrite lookup_insert_ne by (intros [=]; lia). apply Hmem. lia.
    - split.
      + split; cbn [lo_ids lo_vals]; [apply replicate_length..|]. intros; lia.
      + intros j Hj. rewrite cells_lookup, decide_True by reflexivity. apply cstart_at. lia. }
  destruct Hloop as (L & m' & Hs & HL & _). replace (ccut t + (ccut (t + 1) - ccut t)) with (ccut (t + 1)) in HL by lia.
  exists L, m'. split; [|exact HL]. unfold heapThread.
  eapply solo_lift; [apply get_Some, ccuts_at; lia|]. eapply solo_lift; [apply get_Some, ccuts_at; lia|].
  eapply solo_lift; [apply colSum, Ht|]. eapply solo_lift; [apply colLens, Ht|]. exact Hs.
Qed.

Lemma imap_seq {T U} (g : nat -> T) (l : list U) : length l = nt -> g <$> seq 0 nt = imap (fun t _ => g t) l.
Proof.
  intros Hl. apply list_eq. intros t. rewrite seq_at, list_lookup_imap. destruct (decide (t < nt)) as [Ht|Ht].
  - destruct (lookup_lt_is_Some_2 l t) as [x ->]; [lia|]. reflexivity.
  - rewrite (lookup_ge_None_2 l) by lia. reflexivity.
Qed.

Lemma numeric_region : exists locals, length locals = nt /\ (forall t L, locals !! t = Some L -> t < nt /\ lok t (ccut (t + 1)) L) /\
  always (cells aEnd cstart, heapThread mul add A B cflops cstart ccuts <$> seq 0 nt) (cells aEnd cends) locals /\
  race_free (cells aEnd cstart, heapThread mul add A B cflops cstart ccuts <$> seq 0 nt).
Proof.
  destruct (choose_rows nt (fun t L => exists mf, solo (cells aEnd cstart) (heapThread mul add A B cflops cstart ccuts t) (evT t) L mf /\ lok t (ccut (t + 1)) L) (mkLout [] [])) as [rs Hrs].
  { intros t Ht. destruct (thread_solo t Ht) as (L & mf & H). eauto. }
  exists (rs <$> seq 0 nt). split; [rewrite fmap_length, seq_length; reflexivity|]. split.
  { intros t L HL. rewrite seq_at in HL. destruct (decide (t < nt)) as [Ht|]; [|discriminate]. injection HL as <-. split; [exact Ht|]. destruct (Hrs t Ht) as (mf & _ & H). exact H. }
  set (ss := replicate nt (mkLout (V := V) [] [])). assert (Hss : length ss = nt) by apply replicate_length.
  rewrite (imap_seq (heapThread mul add A B cflops cstart ccuts) ss Hss).
  set (own := fun t (l : loc) => fst l = aEnd /\ ccut t <= snd l < ccut (t + 1)).
  set (wv := fun l : loc => Some (S (snd l) + length (R (snd l)))).
  assert (Hev : forall t x, x ∈ evT t -> exists i, ccut t <= i < ccut (t + 1) /\ (x = ERd (aEnd, i) \/ x = EWr (aEnd, i) (S i + length (R i)))).
  { intros t x Hx. unfold evT in Hx. apply elem_of_events in Hx as (i & Hi & Hx). exists i. split; [lia|].
    apply elem_of_cons in Hx as [Hx|Hx]; [left; exact Hx|right; apply elem_of_list_singleton, Hx]. }
  assert (Hsolo : forall t s, t < nt -> ss !! t = Some s -> exists mf, solo (cells aEnd cstart) ((fun (_ : unit) t (_ : lout V) => heapThread mul add A B cflops cstart ccuts t) tt t s) (evT t) (rs t) mf).
  { intros t s Ht _. destruct (Hrs t Ht) as (mf & H & _). eauto. }
  assert (Hw : forall t l v, t < nt -> EWr l v ∈ evT t -> own t l /\ wv l = Some v).
  { intros t l v Ht Hx. apply Hev in Hx as (i & Hi & [E|E]); [discriminate|]. injection E as -> ->. split; [split; [reflexivity|exact Hi]|reflexivity]. }
  assert (Hx : forall t u l, t < nt -> u < nt -> own t l -> own u l -> t = u).
  { intros t u l Ht Hu [_ H1] [_ H2]. destruct (Nat.lt_trichotomy t u) as [H|[H|H]]; [|exact H|].
    - pose proof (cut_le ccut nt (t + 1) u ccut_m ltac:(lia)). lia.
    - pose proof (cut_le ccut nt (u + 1) t ccut_m ltac:(lia)). lia. }
  assert (Hr : forall t u l, t < nt -> u < nt -> ERd l ∈ evT t -> own u l -> u = t).
  { intros t u l Ht Hu Hin' Hl. apply Hev in Hin' as (i & Hi & [E|E]); [|discriminate]. injection E as ->.
    symmetry. apply (Hx t u (aEnd, i)); auto. split; [reflexivity|exact Hi]. }
  split.
  - destruct (owned_phase nt ss (fun (_ : unit) t (_ : lout V) => heapThread mul add A B cflops cstart ccuts t) tt (cells aEnd cstart) evT rs own wv Hss Hsolo Hw Hr Hx) as (m' & Hal & Hwr & Hkp).
    replace (cells aEnd cends) with m'; [exact Hal|]. apply map_eq. intros [a i]. rewrite cells_lookup. destruct (decide (a = aEnd)) as [->|Hne].
    + destruct (decide (i < n)) as [Hi|Hi].
      * rewrite cends_at by exact Hi. rewrite <- ccut_nt in Hi. destruct (cut_cover ccut nt i ccut_0 Hi) as (t & Ht & Hc). apply (Hwr t _ _ Ht).
        unfold evT. apply elem_of_events. exists i. split; [lia|]. right. left.
      * rewrite (lookup_ge_None_2 cends) by (unfold cends; rewrite fmap_length, seq_length; lia).
        rewrite Hkp; [rewrite cells_lookup, decide_True by reflexivity; apply lookup_ge_None_2; rewrite cstart_len; lia|].
        intros t v Ht Hin'. apply Hev in Hin' as (j & Hj & [E|E]); [discriminate|]. injection E as -> ->. pose proof (ccut_le (t + 1) ltac:(lia)). lia.
    + rewrite Hkp; [rewrite cells_lookup, decide_False by exact Hne; reflexivity|].
      intros t v Ht Hin'. apply Hev in Hin' as (j & Hj & [E|E]); [discriminate|]. injection E as E _ _. contradiction.
  - apply (owned_race_free nt ss (fun (_ : unit) t (_ : lout V) => heapThread mul add A B cflops cstart ccuts t) tt (cells aEnd cstart) evT rs own Hss Hsolo).
    + intros t l v Ht H. apply (Hw t l v Ht H).
    + exact Hr.
    + intros t u l Ht Hu Hin'. apply Hev in Hin' as (j & Hj & [E|E]); discriminate.
    + exact Hx.
Qed.

(** *** The copy to C *)
Definition cnz : list nat := (fun i => length (R i)) <$> seq 0 n.
Lemma nz_region : parfor_ends (nzBody cstart cends) n (cells aCnz (replicate n 0)) (cells aCnz cnz) /\
  parfor_race_free (nzBody cstart cends) n (cells aCnz (replicate n 0)).
Proof.
  apply (fill_ok aCnz 0 n _ (fun i => length (R i))).
  - intros i m Hi Hm. unfold nzBody. eapply solo_lift; [apply get_Some, cends_at, Hi|]. eapply solo_lift; [apply get_Some, cstart_at, Hi|].
    eapply solo_lift; [unfold diff; destruct (Nat.leb_spec (S i) (S i + length (R i))); [reflexivity|lia]|].
    rewrite Nat.add_0_r in *. replace (S i + length (R i) - S i) with (length (R i)) by lia. apply solo_wr; [exact Hm|constructor].
  - rewrite replicate_length. lia.
  - intros j. unfold cnz. rewrite seq_at, Nat.add_0_r. destruct (decide (j < n)) as [Hj|Hj].
    + rewrite decide_True by lia. rewrite Nat.sub_0_r. reflexivity.
    + rewrite decide_False by lia. symmetry. apply lookup_ge_None_2. rewrite replicate_length. lia.
Qed.

Lemma cnz_scan top nts : lScan_always 0 Nat.add top cnz (n + 1) nts (replicate (n + 1) (Some 0)) (Some <$> (pre R <$> seq 0 (n + 1))).
Proof.
  unfold cnz, lScan_always, lIsSeq. rewrite (proj2 (N.ltb_lt _ _) HN). rewrite seqScan_ok; try (intros; lia).
  - rewrite drop_ge by (rewrite replicate_length; lia). rewrite app_nil_r. f_equal. rewrite <- list_fmap_compose.
    apply list_eq. intros i. rewrite !seq_at. destruct (decide (i < n + 1)); [|reflexivity]. simpl. rewrite psum_lengths by lia. reflexivity.
  - rewrite fmap_length, seq_length. lia.
  - rewrite replicate_length. lia.
Qed.

Lemma localCol_ok t L i : t < nt -> ccut t <= i < ccut (t + 1) -> lok t (ccut (t + 1)) L -> localCol cstart cends i (ccut t, L) = Ok ((ccut t, L), R i).
Proof.
  intros Ht Hi [L1 L2 L3]. pose proof (ccut_le (t + 1) ltac:(lia)) as Hle. unfold localCol.
  rewrite (get_Some _ _ _ (cstart_at i ltac:(lia))), bind_Ok, (get_Some _ _ _ (cends_at i ltac:(lia))), bind_Ok, (get_Some _ _ _ (cstart_at (ccut t) ltac:(lia))), bind_Ok.
  pose proof (wsum_le f (ccut t) i ltac:(lia)) as W1. unfold diff.
  destruct (Nat.leb_spec (S (ccut t)) (S i)); [|lia]. rewrite bind_Ok.
  destruct (Nat.leb_spec (S (ccut t)) (S i + length (R i))); [|lia]. rewrite bind_Ok.
  destruct (for_inv (fun p l => l = take (p - (S i - S (ccut t))) (R i))
    (fun k l => c <- get (lo_ids L) k ;; v <- getI (lo_vals L) k ;; Ok (l ++ [(c, v)])) (S i - S (ccut t)) (S i + length (R i) - S (ccut t)) []) as (l & Hf & Hl).
  - lia.
  - rewrite Nat.sub_diag. reflexivity.
  - intros p l Hp ->. destruct (lookup_lt_is_Some_2 (R i) (p - (S i - S (ccut t)))) as [[c v] Hcv]; [lia|].
    destruct (L3 i _ c v Hi Hcv) as [H1 H2]. replace (S i - S (ccut t) + (p - (S i - S (ccut t)))) with p in H1, H2 by lia.
    rewrite (get_Some _ _ _ H1), bind_Ok, (getI_Some _ _ _ H2), bind_Ok. eexists. split; [reflexivity|].
    replace (p + 1 - (S i - S (ccut t))) with (Datatypes.S (p - (S i - S (ccut t)))) by lia. symmetry. apply take_S_r, Hcv.
  - rewrite Hf, bind_Ok, Hl. rewrite take_ge by lia. reflexivity.
Qed.

Definition cscOf (nr : nat) : csc V := mkCsc nr n (pre R n) (pre R <$> seq 0 (n + 1)) (fst <$> rowsOf R 0 n) (snd <$> rowsOf R 0 n).

Lemma copy_region locals : length locals = nt -> (forall t L, locals !! t = Some L -> t < nt /\ lok t (ccut (t + 1)) L) ->
  exists asg, chunks ccuts nt = Ok asg /\ length asg = nt /\
  always (numMem (replicate (pre R n) 0) (replicate (pre R n) dflt),
      numThreads (fun t => L <- get locals t ;; ct <- get ccuts t ;; Ok (ct, L)) (localCol cstart cends) (pre R <$> seq 0 (n + 1)) asg)
    (numMem (fst <$> rowsOf R 0 n) (snd <$> rowsOf R 0 n)) (replicate nt tt) /\
  race_free (numMem (replicate (pre R n) 0) (replicate (pre R n) dflt),
      numThreads (fun t => L <- get locals t ;; ct <- get ccuts t ;; Ok (ct, L)) (localCol cstart cends) (pre R <$> seq 0 (n + 1)) asg).
Proof.
  intros Hl HL. eexists. split; [apply (chunks_ok _ _ ccut ccuts_at)|]. split; [rewrite fmap_length, seq_length; reflexivity|].
  set (asg := (fun t => seq (ccut t) (ccut (t + 1) - ccut t)) <$> seq 0 nt).
  assert (Hat : forall t its, asg !! t = Some its -> t < nt /\ its = seq (ccut t) (ccut (t + 1) - ccut t)).
  { intros t its H. unfold asg in H. rewrite seq_at in H. destruct (decide (t < nt)); [|discriminate]. injection H as <-. auto. }
  destruct (num_pass dflt n R (fun t => L <- get locals t ;; ct <- get ccuts t ;; Ok (ct, L)) (localCol cstart cends) asg
    (fun t s => exists L, locals !! t = Some L /\ s = (ccut t, L))) as [P F].
  - apply chunks_schedule; [reflexivity|apply ccut_nt|apply ccut_m].
  - intros t its H. apply Hat in H as [Ht _]. destruct (lookup_lt_is_Some_2 locals t) as [L HLt]; [lia|].
    rewrite (get_Some _ _ _ HLt), bind_Ok, (get_Some _ _ _ (ccuts_at t ltac:(lia))), bind_Ok. eauto.
  - intros t its i s H Hi' (L & HLt & ->). apply Hat in H as [Ht ->]. apply elem_of_seq in Hi'. exists (ccut t, L).
    split; [|eauto]. apply localCol_ok; [exact Ht|pose proof (ccut_m t Ht); lia|apply HL, HLt].
  - assert (length asg = nt) as E by (unfold asg; rewrite fmap_length, seq_length; reflexivity). rewrite E in P. auto.
Qed.

(** *** The call *)
Theorem heapCsc_driver top nts iA iB iC (s s1 : gmap nat (obj V)) nr lost : deref_csc s iA = Ok A -> deref_csc s iB = Ok B ->
  resetC iA iB iC s = Ok (s1, nr, n, lost) ->
  HeapCsc_ends mul add dflt top nts nt iA iB iC s (<[iC := OCsc (cscOf nr)]> s1) lost /\
  forall s' lost', HeapCsc_ends mul add dflt top nts nt iA iB iC s s' lost' -> s' = <[iC := OCsc (cscOf nr)]> s1 /\ lost' = lost.
Proof.
  intros EA EB ER.
  destruct numeric_region as (locals & Hll & HL & Hnum & _). destruct (copy_region locals Hll HL) as (asg & Hch & Hal & Hcopy & _).
  destruct cend_region as [Hend _]. destruct ccut_region as [Hcut _]. destruct nz_region as [Hnz _].
  assert (Hs0 : set_ (replicate n (Some 0)) 0 (Some 0) = Ok (<[0 := Some 0]> (replicate n (Some 0)))) by (apply set_Ok; rewrite replicate_length; lia).
  assert (He0 : set_ (replicate n 0) 0 0 = Ok (<[0 := 0]> (replicate n 0))) by (apply set_Ok; rewrite replicate_length; lia).
  assert (Hc0 : set_ (replicate (nt + 1) 0) 0 0 = Ok (<[0 := 0]> (replicate (nt + 1) 0))) by (apply set_Ok; rewrite replicate_length; lia).
  assert (Hg : get (pre R <$> seq 0 (n + 1)) n = Ok (pre R n)) by (apply get_Some; rewrite seq_at, decide_True by lia; reflexivity).
  pose proof (cnz_scan top nts) as Hsc. pose proof (cscan_ok top nts) as Hcs.
  split.
  - split; [exact Hnt|]. exists A, B. split; [exact EA|]. split; [exact EB|].
    exists cflops, (S n). split; [exact cflops_ok|]. do 2 eexists. split; [exact Hs0|]. split; [exact He0|].
    exists cstart. split; [exact Hcs|]. exists cstart. split; [exact Hend|].
    do 3 eexists. split; [exact Hc0|]. split; [exact Hcut|]. split; [exact ccuts_set|].
    exists cends, locals. split; [exact Hnum|]. exists s1, nr, n. split; [exact ER|].
    exists cnz. split; [exact Hnz|]. exists (cscOf nr). split; [reflexivity|]. split; [reflexivity|]. split; [exact Hsc|]. split; [exact Hg|].
    exists asg. split; [exact Hch|]. split; [exact Hcopy|reflexivity].
  - intros s' lost' (_ & A' & B' & QA & QB & fl & tot & Qf & st0 & en0 & Qs0 & Qe0 & cs & Qcs & en1 & Qend & c0 & c1 & cut & Qc0 & Qcut & Qset & en & loc' & Qnum & s1' & nr' & nc' & QR & nz & Qnz & C & Cr & Cc & Qsc & Qg & asg' & Qch & Qcopy & ->).
    rewrite EA in QA. injection QA as <-. rewrite EB in QB. injection QB as <-.
    destruct (parfor_always_unique _ _ _ _ _ _ _ Qf cflops_ok) as [E1 ->]. apply (inj (fmap Some)) in E1 as ->.
    rewrite Hs0 in Qs0. injection Qs0 as <-. rewrite He0 in Qe0. injection Qe0 as <-. rewrite Hc0 in Qc0. injection Qc0 as <-.
    assert (HN' : lIsSeq n = true) by (apply N.ltb_lt; lia). assert (HN1 : lIsSeq (n + 1) = true) by (apply N.ltb_lt; exact HN).
    unfold lScan_always in Qcs, Hcs. rewrite HN' in Qcs, Hcs. rewrite Hcs in Qcs. injection Qcs as Qcs. apply (inj (fmap Some)) in Qcs as <-.
    pose proof (parfor_ends_unique _ _ _ _ _ Qend Hend) as E2. apply cells_inj in E2 as ->.
    pose proof (parfor_ends_unique _ _ _ _ _ Qcut Hcut) as E3. apply cells_inj in E3 as ->.
    rewrite ccuts_set in Qset. injection Qset as <-.
    destruct (always_unique _ _ _ _ _ Qnum Hnum) as [E4 ->]. apply cells_inj in E4 as ->.
    rewrite ER in QR. injection QR as <- <- <- <-.
    pose proof (parfor_ends_unique _ _ _ _ _ Qnz Hnz) as E5. apply cells_inj in E5 as ->.
    unfold lScan_always in Qsc, Hsc. rewrite HN1 in Qsc, Hsc. rewrite Hsc in Qsc. injection Qsc as Qsc. apply (inj (fmap Some)) in Qsc.
    rewrite <- Qsc in *. rewrite Hg in Qg. injection Qg as Qg. rewrite <- Qg in Qcopy.
    rewrite Hch in Qch. injection Qch as <-.
    destruct (always_unique _ _ _ _ _ Qcopy Hcopy) as [E6 _]. apply numMem_inj in E6 as [E6 E7].
    split; [|reflexivity]. do 2 f_equal. unfold cscOf. destruct C; cbn in *. subst. reflexivity.
Qed.
End Driver.
