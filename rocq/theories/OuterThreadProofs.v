(** The threads of OuterSpGEMM: what they write to the blocks. *)
From Verif Require Export OuterModel OuterMachProofs.
From Verif Require Import BaseProofs ConcProofs RadixProofs.
From Verif Require Import Base Spec.

Section RowRuns.
Context {V X : Type}.
Lemma row_runs {S} (Y : csr V) row b e (I : list (nat * V) -> list (nat * list X) -> S -> Prop) (body : nat -> S -> fprog X S) s0 c0 :
  wf Y -> row < rows Y -> rowptr Y !! row = Some b -> rowptr Y !! (row + 1) = Some e ->
  I [] c0 s0 ->
  (forall done j k v rest c s, row_entries Y row = done ++ (k, v) :: rest ->
     j = b + length done -> colids Y !! j = Some k -> values Y !! j = Some v -> k < cols Y ->
     I done c s -> exists c' s', runs (body j s) [] c' s' /\ I (done ++ [(k, v)]) (c ++ c') s') ->
  exists c s', runs (ffor b e body s0) [] c s' /\ I (row_entries Y row) (c0 ++ c) s'.
Proof.
  intros Hw Hr Hb He H0 Hstep.
  pose proof (row_entries_length Y row b e Hw Hr Hb He) as Hlen.
  assert (b <= e) as Hbe by (eapply (wf_mono Y Hw); eauto).
  destruct (runs_ffor (fun j c s => I (take (j - b) (row_entries Y row)) c s) body b e s0 c0) as (c & s' & Hf & HI).
  - exact Hbe.
  - rewrite Nat.sub_diag. exact H0.
  - intros j c s Hj HI.
    destruct (row_entries_lookup_ex Y row b e (j - b) Hw Hr Hb He) as (k & v & H1 & H2 & H3 & H4); [lia|].
    replace (b + (j - b)) with j in * by lia.
    destruct (Hstep (take (j - b) (row_entries Y row)) j k v (drop (Datatypes.S (j - b)) (row_entries Y row)) c s) as (c' & s' & Hs & HI').
    + rewrite <- (take_drop (j - b) (row_entries Y row)) at 1. f_equal. apply drop_S. exact H1.
    + rewrite take_length. lia.
    + exact H2.
    + exact H3.
    + exact H4.
    + exact HI.
    + exists c', s'. split; [exact Hs|]. replace (j + 1 - b) with (Datatypes.S (j - b)) by lia. rewrite (take_S_r _ _ _ H1). exact HI'.
  - exists c, s'. split; [exact Hf|]. rewrite take_ge in HI by lia. exact HI.
Qed.
End RowRuns.

Lemma u16_id n : (N.of_nat n < 2 ^ 16)%N -> u16 n = n.
Proof. intros H. unfold u16. rewrite N.mod_small by exact H. apply Nat2N.id. Qed.

Section Threads.
Context {V : Type} (mul : V -> V -> V) (A : csc V) (B : csr V) (bid : nat -> res nat) (blk : nat -> nat) (nb bw : nat).
Hypothesis HA : wf_csc A.
Hypothesis HB : wf B.
Hypothesis Hin : c_cols A = rows B.
Hypothesis Hbid : forall row, row < c_rows A -> bid row = Ok (blk row).
Hypothesis Hblk : forall row, row < c_rows A -> blk row < nb.
Hypothesis Hbw : 1 <= bw.
Notation triple := (nat * nat * V)%type.

(** The products of one entry of A, of one column, of several. *)
Definition entTriples (i : nat) (ra : nat * V) : list triple := (fun cb => (fst ra, fst cb, mul (snd ra) (snd cb))) <$> row_entries B i.
Definition colTriples (i : nat) : list triple := mjoin (entTriples i <$> col_entries A i).
Definition colsTriples (its : list nat) : list triple := mjoin (colTriples <$> its).
Definition ofBlk (b : nat) (l : list triple) : list triple := filter (fun x => blk x.1.1 = b) l.

Definition binHas (bins : list (option triple)) (b : nat) (l : list triple) : Prop :=
  forall q x, l !! q = Some x -> bins !! (b * bw + q) = Some (Some x).

Lemma flush_loop b v (bins : list (option triple)) n : forall lo (xs : list triple), length xs = n ->
  (forall q x, xs !! q = Some x -> bins !! (b * bw + (lo + q)) = Some (Some x)) ->
  runs (ffor_n n lo (fun q _ => fbind (flift (getI bins (b * bw + q))) (fun x => FPut b (v + q) x (FRet tt))) tt)
    (imap (fun q x => (b, v + (lo + q), x)) xs) [] tt.
Proof.
  induction n as [|n IH]; intros lo [|x xs] Hl Hx; try discriminate; simpl ffor_n.
  - constructor.
  - injection Hl as Hl. rewrite imap_cons. rewrite (getI_Some _ _ x); [|rewrite <- (Nat.add_0_r lo); apply (Hx 0); reflexivity].
    simpl fbind. rewrite Nat.add_0_r. constructor.
    assert (E : imap ((fun q y => (b, v + (lo + q), y)) ∘ S) xs = imap (fun q y => (b, v + (S lo + q), y)) xs).
    { apply imap_ext. intros i y _. cbn. do 2 f_equal. lia. }
    rewrite E. apply IH; [exact Hl|]. intros q y Hy. replace (S lo + q) with (lo + S q) by lia. apply (Hx (S q)), Hy.
Qed.

Lemma flush_ok b bins xs : binHas bins b xs -> runs (flush bw b (length xs) bins) [] [(b, xs)] tt.
Proof.
  intros Hx. unfold flush. constructor; [reflexivity|]. intros v. unfold ffor. rewrite Nat.sub_0_r.
  apply (flush_loop b v bins (length xs) 0 xs eq_refl). intros q x Hq. apply Hx, Hq.
Qed.

Lemma bin_pos b q b' q' : q < bw -> q' < bw -> b * bw + q = b' * bw + q' -> b = b' /\ q = q'.
Proof.
  intros H1 H2 E. assert (b = b'); [|subst; split; lia].
  apply (Nat.div_mod_unique bw b b' q q'); [lia|lia|]. lia.
Qed.

Lemma binHas_insert bins b l x : b * bw + length l < length bins -> binHas bins b l -> binHas (<[b * bw + length l := Some x]> bins) b (l ++ [x]).
Proof.
  intros Hl Hh q y Hq. apply lookup_app_Some in Hq as [Hq|[Hge Hq]].
  - rewrite list_lookup_insert_ne by (apply lookup_lt_Some in Hq; lia). apply Hh, Hq.
  - apply list_lookup_singleton_Some in Hq as [Eq <-]. replace q with (length l) by lia. apply list_lookup_insert, Hl.
Qed.

Definition onlyBlk (b : nat) (c : list (nat * list triple)) : Prop := forall ch, ch ∈ c -> ch.1 = b.

Lemma pushRow_ok b row j a i x y bins l0 : b < nb -> c_values A !! j = Some a -> i < rows B ->
  rowptr B !! i = Some x -> rowptr B !! (i + 1) = Some y ->
  length bins = nb * bw -> length l0 < bw -> binHas bins b l0 ->
  exists c bins' l', runs (pushRow mul A B bw b row j x y (bins, length l0)) [] c (bins', length l') /\
    length bins' = nb * bw /\ length l' < bw /\ binHas bins' b l' /\ onlyBlk b c /\
    ofBlock b c ++ l' = l0 ++ entTriples i (row, a) /\
    (forall b' q, b' <> b -> q < bw -> bins' !! (b' * bw + q) = bins !! (b' * bw + q)).
Proof.
  intros Hb Ha Hi Hx Hy Hlb Hl0 Hh.
  set (f := fun cb : nat * V => (row, fst cb, mul a (snd cb))).
  destruct (row_runs B i x y (fun done c (s : list (option triple) * nat) => exists bins' l', s = (bins', length l') /\
      length bins' = nb * bw /\ length l' < bw /\ binHas bins' b l' /\ onlyBlk b c /\ ofBlock b c ++ l' = l0 ++ (f <$> done) /\
      (forall b' q, b' <> b -> q < bw -> bins' !! (b' * bw + q) = bins !! (b' * bw + q)))
    (fun k '(bins, cur) =>
    fbind (flift (c <- get (colids B) k ;; a <- get (c_values A) j ;; v <- get (values B) k ;;
                  set_ bins (b * bw + cur) (Some (row, c, mul a v)))) (fun bins =>
    if cur + 1 =? bw then fbind (flush bw b bw bins) (fun _ => FRet (bins, 0))
    else FRet (bins, cur + 1))) (bins, length l0) []) as (c & s' & Hr & (bins' & l' & -> & H)).
  - exact HB.
  - exact Hi.
  - exact Hx.
  - exact Hy.
  - exists bins, l0. split; [reflexivity|]. split; [exact Hlb|]. split; [exact Hl0|]. split; [exact Hh|].
    split; [intros ch Hch; apply elem_of_nil in Hch; contradiction|]. split; [rewrite app_nil_r; reflexivity|reflexivity].
  - intros done k cl v rest c s Er Ek Hc Hv _ (b1 & l1 & -> & Hb1 & Hl1 & Hh1 & Ho1 & E1 & Hf1).
    rewrite (get_Some _ _ _ Hc), bind_Ok, (get_Some _ _ _ Ha), bind_Ok, (get_Some _ _ _ Hv), bind_Ok.
    assert (Hpos : b * bw + length l1 < length b1) by (rewrite Hb1; nia).
    rewrite set_Ok by exact Hpos. cbn [flift fbind].
    set (b2 := <[b * bw + length l1 := Some (row, cl, mul a v)]> b1).
    assert (Hb2 : length b2 = nb * bw) by (unfold b2; rewrite insert_length; exact Hb1).
    pose proof (binHas_insert b1 b l1 (row, cl, mul a v) Hpos Hh1) as Hh2. fold b2 in Hh2.
    assert (Hf2 : forall b' q, b' <> b -> q < bw -> b2 !! (b' * bw + q) = bins !! (b' * bw + q)).
    { intros b' q Hne Hq. unfold b2. rewrite list_lookup_insert_ne; [apply Hf1; assumption|].
      intros E. apply bin_pos in E as [E _]; [congruence|exact Hl1|exact Hq]. }
    destruct (Nat.eqb_spec (length l1 + 1) bw) as [Efull|Hnf].
    + assert (Hlen : length (l1 ++ [(row, cl, mul a v)]) = bw) by (rewrite app_length; simpl; lia).
      exists [(b, l1 ++ [(row, cl, mul a v)])], (b2, 0). split.
      { apply (runs_bind _ _ [] [(b, l1 ++ [(row, cl, mul a v)])] tt []); [|constructor].
        pose proof (flush_ok b b2 _ Hh2) as Hfl. rewrite Hlen in Hfl. exact Hfl. }
      exists b2, []. split; [reflexivity|]. split; [exact Hb2|]. split; [simpl; lia|]. split; [intros q z Hq; rewrite lookup_nil in Hq; discriminate|].
      split. { intros ch Hch. apply elem_of_app in Hch as [Hch|Hch]; [apply Ho1, Hch|]. apply elem_of_list_singleton in Hch as ->. reflexivity. }
      split; [|exact Hf2]. rewrite ofBlock_app, ofBlock_cons. cbn [fst snd]. rewrite Nat.eqb_refl, fmap_app, !app_nil_r, (assoc_L (++)), E1, (assoc_L (++)). reflexivity.
    + exists [], (b2, length l1 + 1). split; [constructor|]. exists b2, (l1 ++ [(row, cl, mul a v)]). split; [rewrite app_length; reflexivity|].
      split; [exact Hb2|]. split; [rewrite app_length; simpl; lia|]. split; [exact Hh2|]. rewrite app_nil_r. split; [exact Ho1|]. split; [|exact Hf2].
      rewrite fmap_app, !(assoc_L (++)), E1. reflexivity.
  - exists c, bins', l'. split; [exact Hr|]. exact H.
Qed.

(** What a thread has done when it has made the products [T]. *)
Definition tstate (T : list triple) (c : list (nat * list triple)) (s : list (option triple) * list nat) : Prop :=
  exists L : nat -> list triple, length s.1 = nb * bw /\ length s.2 = nb /\ (forall ch, ch ∈ c -> ch.1 < nb) /\
    forall b, b < nb -> s.2 !! b = Some (length (L b)) /\ length (L b) < bw /\ binHas s.1 b (L b) /\ ofBlock b c ++ L b = ofBlk b T.

Lemma ofBlk_ent b i ra : ofBlk b (entTriples i ra) = if (blk (fst ra) =? b) then entTriples i ra else [].
Proof.
  unfold ofBlk. destruct (Nat.eqb_spec (blk (fst ra)) b) as [E|E].
  - apply filter_all. intros x Hx. apply elem_of_list_fmap in Hx as (cb & -> & _). exact E.
  - apply filter_none. intros x Hx. apply elem_of_list_fmap in Hx as (cb & -> & _). exact E.
Qed.

Lemma ofBlock_other b b' c : onlyBlk b c -> b' <> b -> ofBlock b' c = [].
Proof.
  intros H Hne. induction c as [|ch c IH]; [reflexivity|]. rewrite ofBlock_cons. rewrite (H ch) by left.
  destruct (Nat.eqb_spec b b'); [congruence|]. apply IH. intros ch' Hch. apply H. right. exact Hch.
Qed.

Lemma pushCol_ok i T c s : i < c_cols A -> tstate T c s ->
  exists c' s', runs (pushCol mul A B bid bw i s) [] c' s' /\ tstate (T ++ colTriples i) (c ++ c') s'.
Proof.
  intros Hi H0. unfold pushCol.
  destruct (wf_lookup (csc_tr A) i HA) as [b Hb]; [cbn; lia|]. destruct (wf_lookup (csc_tr A) (i + 1) HA) as [e He]; [cbn; lia|].
  destruct (wf_lookup B i HB) as [x Hx]; [lia|]. destruct (wf_lookup B (i + 1) HB) as [y Hy]; [lia|].
  change (rowptr (csc_tr A)) with (colptr A) in Hb, He.
  rewrite (get_Some _ _ _ Hb), bind_Ok, (get_Some _ _ _ He), bind_Ok. simpl flift. cbn [fbind].
  destruct (row_runs (csc_tr A) i b e (fun done c (s : list (option triple) * list nat) => tstate (T ++ mjoin (entTriples i <$> done)) c s)
    (fun j '(bins, cnts) =>
    fbind (flift (row <- get (rowids A) j ;; k <- bid row ;; cur <- get cnts k ;;
                  x <- get (rowptr B) i ;; y <- get (rowptr B) (i + 1) ;; Ok (row, k, cur, x, y))) (fun '(row, k, cur, x, y) =>
    fbind (pushRow mul A B bw k row j x y (bins, cur)) (fun '(bins, cur) =>
    flift (cnts <- set_ cnts k cur ;; Ok (bins, cnts))))) s c) as (c' & s' & Hr & HI).
  - exact HA.
  - exact Hi.
  - exact Hb.
  - exact He.
  - cbn. rewrite app_nil_r. exact H0.
  - intros done j row a rest c1 [bins cnts] Er Ej Hrow Ha Hlt (L & HL1 & HL2 & HL3 & HL). cbn [fst snd] in *.
    change (row < c_rows A) in Hlt. change (rowids A !! j = Some row) in Hrow. change (c_values A !! j = Some a) in Ha.
    set (bb := blk row). assert (Hbb : bb < nb) by (apply Hblk, Hlt).
    destruct (HL bb Hbb) as (HC & HLl & HLh & HLe).
    rewrite (get_Some _ _ _ Hrow), bind_Ok. rewrite (Hbid row Hlt), bind_Ok. fold bb. rewrite (get_Some _ _ _ HC), bind_Ok, (get_Some _ _ _ Hx), bind_Ok, (get_Some _ _ _ Hy), bind_Ok.
    cbn [flift fbind].
    destruct (pushRow_ok bb row j a i x y bins (L bb) Hbb Ha ltac:(lia) Hx Hy HL1 HLl HLh) as (c2 & bins' & l' & Hr & Q1 & Q2 & Q3 & Q4 & Q5 & Q6).
    exists c2, (bins', <[bb := length l']> cnts). split.
    { rewrite <- (app_nil_r c2). eapply runs_bind; [exact Hr|]. cbv beta iota. rewrite set_Ok by lia. constructor. }
    exists (fun b' => if b' =? bb then l' else L b'). cbn [fst snd]. split; [exact Q1|]. split; [rewrite insert_length; exact HL2|].
    split. { intros ch Hch. apply elem_of_app in Hch as [Hch|Hch]; [apply HL3, Hch|]. rewrite (Q4 _ Hch). exact Hbb. }
    intros b' Hb'. rewrite fmap_app, mjoin_app, (assoc_L (++)), ofBlock_app. unfold ofBlk at 1. rewrite filter_app. fold (ofBlk b').
    change (filter (fun x : triple => blk x.1.1 = b') (T ++ mjoin (entTriples i <$> done))) with (ofBlk b' (T ++ mjoin (entTriples i <$> done))).
    assert (E1 : mjoin (entTriples i <$> [(row, a)]) = entTriples i (row, a)) by (cbn; apply app_nil_r).
    rewrite E1. change (filter (fun x : triple => blk x.1.1 = b') (entTriples i (row, a))) with (ofBlk b' (entTriples i (row, a))). rewrite ofBlk_ent. cbn [fst]. fold bb.
    destruct (Nat.eqb_spec b' bb) as [->|Hne].
    + split; [apply list_lookup_insert; lia|]. split; [exact Q2|]. split; [exact Q3|]. rewrite Nat.eqb_refl, <- (assoc_L (++)), Q5, (assoc_L (++)), HLe. reflexivity.
    + destruct (HL b' Hb') as (HC' & HLl' & HLh' & HLe'). split; [rewrite list_lookup_insert_ne by congruence; exact HC'|]. split; [exact HLl'|].
      split; [intros q z Hq; rewrite Q6; [apply HLh', Hq|exact Hne|apply lookup_lt_Some in Hq; lia]|].
      rewrite (ofBlock_other bb b' c2 Q4 Hne), app_nil_r, HLe'. destruct (Nat.eqb_spec bb b'); [congruence|]. rewrite app_nil_r. reflexivity.
  - exists c', s'. split; [exact Hr|exact HI].
Qed.

Lemma pushCols_ok its T c s : (forall i, i ∈ its -> i < c_cols A) -> tstate T c s ->
  exists c' s', runs (pushCols mul A B bid bw its s) [] c' s' /\ tstate (T ++ colsTriples its) (c ++ c') s'.
Proof.
  revert T c s. induction its as [|i its IH]; intros T c s Hits H; cbn [pushCols].
  - exists [], s. unfold colsTriples. cbn. rewrite !app_nil_r. split; [constructor|exact H].
  - destruct (pushCol_ok i T c s ltac:(apply Hits; left) H) as (c1 & s1 & Hr1 & H1).
    destruct (IH _ _ _ ltac:(intros; apply Hits; right; assumption) H1) as (c2 & s2 & Hr2 & H2).
    exists (c1 ++ c2), s2. split; [eapply runs_bind; eassumption|]. unfold colsTriples. rewrite fmap_cons, mjoin_cons, !(assoc_L (++)). exact H2.
Qed.

Lemma tstate_init : tstate [] [] (replicate (nb * bw) None, replicate nb 0).
Proof.
  exists (fun _ => []). cbn [fst snd]. rewrite !replicate_length. split; [reflexivity|]. split; [reflexivity|].
  split; [intros ch Hch; apply elem_of_nil in Hch; contradiction|]. intros b Hb. split; [apply lookup_replicate_2, Hb|]. split; [simpl; lia|].
  split; [intros q x Hq; rewrite lookup_nil in Hq; discriminate|reflexivity].
Qed.

Lemma outerThread_ok its : (forall i, i ∈ its -> i < c_cols A) ->
  exists c, runs (outerThread mul A B bid nb bw its) [] c tt /\ (forall ch, ch ∈ c -> ch.1 < nb) /\
    forall b, b < nb -> ofBlock b c = ofBlk b (colsTriples its).
Proof.
  intros Hits. unfold outerThread.
  destruct (pushCols_ok its [] [] _ Hits tstate_init) as (c1 & [bins cnts] & Hr1 & (L & HL1 & HL2 & HL3 & HL)). cbn [fst snd app] in *.
  destruct (runs_ffor (fun n c (_ : unit) => (forall ch, ch ∈ c -> ch.1 < nb) /\ forall b, b < nb -> ofBlock b c = if b <? n then ofBlk b (colsTriples its) else ofBlock b c1)
    (fun b _ => fbind (flift (get cnts b)) (fun n => flush bw b n bins)) 0 nb tt c1) as (c2 & [] & Hr2 & HI2 & HE2).
  - lia.
  - split; [exact HL3|]. intros b _. reflexivity.
  - intros n c [] Hn (I1 & I2). destruct (HL n) as (HC & HLl & HLh & HLe); [lia|].
    exists [(n, L n)], tt. split. { eapply runs_lift; [apply get_Some, HC|]. apply flush_ok, HLh. }
    split. { intros ch Hch. apply elem_of_app in Hch as [Hch|Hch]; [apply I1, Hch|]. apply elem_of_list_singleton in Hch as ->. cbn. lia. }
    intros b Hb. rewrite ofBlock_app, ofBlock_cons, (I2 b Hb). cbn [fst snd]. change (ofBlock b []) with (@nil triple). rewrite app_nil_r.
    destruct (Nat.ltb_spec b n), (Nat.ltb_spec b (n + 1)), (Nat.eqb_spec n b); try lia; subst; try apply app_nil_r. exact HLe.
  - exists (c1 ++ c2). split; [eapply runs_bind; [exact Hr1|exact Hr2]|]. split; [exact HI2|]. intros b Hb. rewrite (HE2 b Hb). destruct (Nat.ltb_spec b nb); [reflexivity|lia].
Qed.

End Threads.

Section Counts.
Context {V : Type} (blk : nat -> nat) (nb : nat).
Notation triple := (nat * nat * V)%type.
Notation ofBlk := (ofBlk blk).
Definition counts (T : list triple) : list nat := (fun b => length (ofBlk b T)) <$> seq 0 nb.

Lemma counts_lookup T b : b < nb -> counts T !! b = Some (length (ofBlk b T)).
Proof. intros Hb. unfold counts. rewrite list_lookup_fmap, lookup_seq_lt by exact Hb. reflexivity. Qed.
Lemma counts_ge T b : ~ b < nb -> counts T !! b = None.
Proof. intros Hb. apply lookup_ge_None. unfold counts. rewrite fmap_length, seq_length. lia. Qed.
Lemma ofBlk_app b (T1 T2 : list triple) : ofBlk b (T1 ++ T2) = ofBlk b T1 ++ ofBlk b T2.
Proof. apply filter_app. Qed.

Lemma counts_nil : counts [] = replicate nb 0.
Proof. unfold counts. apply list_eq. intros k. destruct (decide (k < nb)) as [Hk|Hk].
  - rewrite list_lookup_fmap, lookup_seq_lt, lookup_replicate_2 by exact Hk. reflexivity.
  - rewrite !(proj2 (lookup_ge_None _ _)); [reflexivity| |]; rewrite ?replicate_length, ?fmap_length, ?seq_length; lia.
Qed.

Lemma counts_add (T1 T2 : list triple) : zip_with Nat.add (counts T1) (counts T2) = counts (T1 ++ T2).
Proof.
  apply list_eq. intros k. rewrite lookup_zip_with. destruct (decide (k < nb)) as [Hk|Hk].
  - rewrite !counts_lookup by exact Hk. cbn. rewrite ofBlk_app, app_length. reflexivity.
  - rewrite !counts_ge by exact Hk. reflexivity.
Qed.

End Counts.


(** ** The symbolic phase *)
Lemma blockId_eq R nb row : row / R < nb -> (N.of_nat nb < 2 ^ 16)%N -> blockId R row = row / R.
Proof. intros H Hnb. apply u16_id. lia. Qed.

Section Symbolic.
Context {V : Type} (mul : V -> V -> V) (A : csc V) (B : csr V) (R nb : nat).
Hypothesis HA : wf_csc A.
Hypothesis HB : wf B.
Hypothesis Hin : c_cols A = rows B.
Hypothesis Hblk : forall row, row < c_rows A -> row / R < nb.
Hypothesis Hnb : (N.of_nat nb < 2 ^ 16)%N.
Notation triple := (nat * nat * V)%type.
Notation blk := (fun r => r / R).
Notation counts := (counts blk nb).
Notation ofBlk := (ofBlk blk).
Notation entTriples := (entTriples mul B).
Notation colTriples := (colTriples mul A B).
Notation colsTriples := (colsTriples mul A B).

Lemma symCol_ok i T : i < c_cols A -> symCol A B R (counts T) i = Ok (counts (T ++ colTriples i)).
Proof.
  intros Hi. unfold symCol.
  destruct (wf_lookup (csc_tr A) i HA) as [b Hb]; [cbn; lia|]. destruct (wf_lookup (csc_tr A) (i + 1) HA) as [e He]; [cbn; lia|].
  destruct (wf_lookup B i HB) as [x Hx]; [lia|]. destruct (wf_lookup B (i + 1) HB) as [y Hy]; [lia|].
  change (rowptr (csc_tr A)) with (colptr A) in Hb, He.
  rewrite (get_Some _ _ _ Hy), bind_Ok, (get_Some _ _ _ Hx), bind_Ok, (get_Some _ _ _ Hb), bind_Ok, (get_Some _ _ _ He), bind_Ok.
  destruct (row_loop_inv (csc_tr A) i b e (fun done fl => fl = counts (T ++ mjoin (entTriples i <$> done)))
    (fun j fl => r <- get (rowids A) j ;; f <- get fl (blockId R r) ;; set_ fl (blockId R r) (f + (y - x))) (counts T)) as (fl & -> & ->).
  - exact HA.
  - exact Hi.
  - exact Hb.
  - exact He.
  - cbn. rewrite app_nil_r. reflexivity.
  - intros done j row a rest fl Er Ej Hrow Ha Hlt ->. change (row < c_rows A) in Hlt. change (rowids A !! j = Some row) in Hrow.
    rewrite (get_Some _ _ _ Hrow), bind_Ok, (blockId_eq R nb row (Hblk row Hlt) Hnb).
    assert (Hbb : row / R < nb) by (apply Hblk, Hlt). rewrite (get_Some _ _ _ (counts_lookup blk nb _ _ Hbb)), bind_Ok.
    rewrite set_Ok by (unfold counts; rewrite fmap_length, seq_length; exact Hbb). eexists. split; [reflexivity|].
    rewrite fmap_app, mjoin_app, (assoc_L (++)). assert (E1 : mjoin (entTriples i <$> [(row, a)]) = entTriples i (row, a)) by (cbn; apply app_nil_r). rewrite E1.
    set (T' := T ++ mjoin (entTriples i <$> done)). apply list_eq. intros k. destruct (decide (k < nb)) as [Hk|Hk].
    + rewrite (counts_lookup blk nb _ k Hk), ofBlk_app, ofBlk_ent, app_length. cbn [fst].
      destruct (decide (k = row / R)) as [->|Hne].
      * rewrite list_lookup_insert by (unfold counts; rewrite fmap_length, seq_length; exact Hbb). rewrite Nat.eqb_refl. do 2 f_equal. unfold entTriples. rewrite fmap_length.
        symmetry. apply (row_entries_length B i x y HB ltac:(lia) Hx Hy).
      * rewrite list_lookup_insert_ne by congruence. rewrite (counts_lookup blk nb _ k Hk). destruct (Nat.eqb_spec (row / R) k); [congruence|]. simpl. f_equal. lia.
    + rewrite !(proj2 (lookup_ge_None _ _)); [reflexivity| |]; unfold counts; rewrite ?insert_length, fmap_length, seq_length; lia.
  - reflexivity.
Qed.

Lemma symCols_ok its T : (forall i, i ∈ its -> i < c_cols A) -> foldM (symCol A B R) its (counts T) = Ok (counts (T ++ colsTriples its)).
Proof.
  revert T. induction its as [|i its IH]; intros T Hits.
  - unfold colsTriples. cbn. rewrite app_nil_r. reflexivity.
  - rewrite foldM_cons, symCol_ok by (apply Hits; left). rewrite bind_Ok, IH by (intros; apply Hits; right; assumption).
    unfold colsTriples. rewrite fmap_cons, mjoin_cons, (assoc_L (++)). reflexivity.
Qed.

Lemma symbolic_ok asg : schedule (c_cols A) asg -> symbolic A B R nb asg = Ok (counts (colsTriples (seq 0 (c_cols A)))).
Proof.
  intros Hs. assert (Hlt : forall i, i ∈ mjoin asg -> i < c_cols A).
  { intros i Hi. rewrite Hs in Hi. apply elem_of_seq in Hi. lia. }
  assert (E : forall T, foldM (fun fl its => own <- foldM (symCol A B R) its (replicate nb 0) ;; Ok (zip_with Nat.add fl own)) asg (counts T) = Ok (counts (T ++ colsTriples (mjoin asg)))).
  { clear Hs. induction asg as [|its asg IH]; intros T.
    - unfold colsTriples. cbn. rewrite app_nil_r. reflexivity.
    - rewrite mjoin_cons in Hlt. rewrite foldM_cons, <- (counts_nil (V := V) blk nb), symCols_ok by (intros; apply Hlt, elem_of_app; auto). rewrite !bind_Ok.
      cbn [app]. rewrite counts_add, (counts_nil (V := V) blk nb), IH by (intros; apply Hlt, elem_of_app; auto). rewrite mjoin_cons. unfold colsTriples. rewrite fmap_app, mjoin_app, (assoc_L (++)). reflexivity. }
  specialize (E []). rewrite (counts_nil (V := V) blk nb) in E. unfold symbolic. rewrite E. cbn [app]. f_equal. unfold counts. apply list_fmap_ext. intros k b _.
  apply Permutation_length. unfold ofBlk. apply filter_Permutation. unfold colsTriples. rewrite Hs. reflexivity.
Qed.
End Symbolic.
