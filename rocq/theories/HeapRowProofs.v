(** The heap row kernels: the sequence of roots they process, and what they compute from it. *)
From Verif Require Import Base Spec KernelBase BaseProofs ComplProofs MsaProofs McaProofs HeapModel HeapPrimProofs HeapProofs.

Definition logact (e : hentry) (s : list hentry) : res (list hentry) := Ok (s ++ [e]).
Notation run act := (foldM (fun s e => act e s)).

Section Log.
Context {V S : Type} (act : hentry -> S -> res S).
Implicit Types A B M : csr V.

(** A loop with any action is the logged sequence of roots folded with the action. *)
Ltac done_log := exists []; split; [rewrite app_nil_r; reflexivity|]; intros s s'; cbn; congruence.

Lemma heapLoop_log fuel insp A B M me : forall p h log h' log',
  heapLoop logact fuel insp A B M me p h log = Ok (h', log') ->
  exists l, log' = log ++ l /\
    forall s s', run act l s = Ok s' -> heapLoop act fuel insp A B M me p h s = Ok (h', s').
Proof.
  induction fuel as [|fuel IH]; intros p h log h' log' Hl; [discriminate|].
  cbn [heapLoop] in *. destruct (length (hp h) =? 0); [inversion Hl; subst; done_log|].
  destruct (h_top h) as [e|]; [|discriminate]. cbn [bind] in *.
  destruct (adv_mask _ _ _ _ _) as [p'|]; [|discriminate]. cbn [bind] in *.
  destruct (me <=? p'); [inversion Hl; subst; done_log|].
  destruct (get (colids M) p') as [m|]; [|discriminate]. cbn [bind] in *.
  destruct (ek e =? m); [unfold logact in Hl at 1|]; cbn [bind] in *;
    (destruct (insertNext _ _ _ _ _ _ _ _) as [h1|]; [|discriminate]); cbn [bind] in *.
  - apply IH in Hl as (l & -> & H). exists (e :: l). split; [rewrite <- app_assoc; reflexivity|].
    intros s s'. cbn [foldM]. destruct (act e s) as [s1|]; [|discriminate]. cbn [bind]. apply H.
  - apply IH in Hl. exact Hl.
Qed.

Lemma heapLoopC_log fuel A B M me : forall p h log h' log',
  heapLoopC logact fuel A B M me p h log = Ok (h', log') ->
  exists l, log' = log ++ l /\
    forall s s', run act l s = Ok s' -> heapLoopC act fuel A B M me p h s = Ok (h', s').
Proof.
  induction fuel as [|fuel IH]; intros p h log h' log' Hl; [discriminate|].
  cbn [heapLoopC] in *. destruct (length (hp h) =? 0); [inversion Hl; subst; done_log|].
  destruct (h_top h) as [e|]; [|discriminate]. cbn [bind] in *.
  destruct (adv_mask _ _ _ _ _) as [p'|]; [|discriminate]. cbn [bind] in *.
  destruct (me <=? p'); [inversion Hl; subst; done_log|].
  destruct (get (colids M) p') as [m|]; [|discriminate]. cbn [bind] in *.
  destruct (ek e =? m); [|unfold logact in Hl at 1]; cbn [bind] in *;
    (destruct (insertNext _ _ _ _ _ _ _ _) as [h1|]; [|discriminate]); cbn [bind] in *.
  - apply IH in Hl. exact Hl.
  - apply IH in Hl as (l & -> & H). exists (e :: l). split; [rewrite <- app_assoc; reflexivity|].
    intros s s'. cbn [foldM]. destruct (act e s) as [s1|]; [|discriminate]. cbn [bind]. apply H.
Qed.

Lemma heapTail_log fuel A B M : forall h log h' log',
  heapTail logact fuel A B M h log = Ok (h', log') ->
  exists l, log' = log ++ l /\
    forall s s', run act l s = Ok s' -> heapTail act fuel A B M h s = Ok (h', s').
Proof.
  induction fuel as [|fuel IH]; intros h log h' log' Hl; [discriminate|].
  cbn [heapTail] in *. destruct (length (hp h) =? 0); [inversion Hl; subst; done_log|].
  destruct (h_top h) as [e|]; [|discriminate]. cbn [bind] in *.
  unfold logact in Hl at 1; cbn [bind] in *.
  (destruct (insertNext _ _ _ _ _ _ _ _) as [h1|]; [|discriminate]); cbn [bind] in *.
  apply IH in Hl as (l & -> & H). exists (e :: l). split; [rewrite <- app_assoc; reflexivity|].
  intros s s'. cbn [foldM]. destruct (act e s) as [s1|]; [|discriminate]. cbn [bind]. apply H.
Qed.
End Log.

(** *** The capacity and the high-water mark do not influence the contents *)
Definition same_hp (r1 r2 : res heap) : Prop :=
  forall h1 h2, r1 = Ok h1 -> r2 = Ok h2 -> hp h1 = hp h2.
Definition recap (c m : nat) (h : heap) : heap := mkHeap (hp h) c m.
Definition rmap {X Y} (f : X -> Y) (r : res X) : res Y := match r with Ok x => Ok (f x) | Err e => Err e end.

Section Recap.
Context {V : Type}.
Implicit Types A B M : csr V.
Variables c m : nat.

Lemma insertNext_recap insp A B M p me e h :
  insertNext insp A B M p me e (recap c m h) = rmap (recap c m) (insertNext insp A B M p me e h).
Proof.
  unfold insertNext.
  destruct (get (colids A) (erunr e)) as [inner|]; [|reflexivity]. cbn [bind].
  destruct (get (rowptr B) (inner + 1)) as [be|]; [|reflexivity]. cbn [bind].
  match goal with |- bind ?x _ = _ => destruct x as [[e' keep]|] end; [|reflexivity]. cbn [bind].
  unfold h_setRoot, recap. cbn [hp hcap hmax].
  destruct (set_ (hp h) 0 e') as [l|]; [|reflexivity]. cbn [bind].
  destruct keep.
  - unfold h_sinkRoot. cbn [hp]. destruct (pop_heap l) as [l1|]; [|reflexivity]. cbn [bind].
    destruct (push_heap l1); reflexivity.
  - unfold h_pop. cbn [hp]. destruct (pop_heap l) as [l1|]; [|reflexivity]. cbn [bind].
    destruct (length l1); reflexivity.
Qed.

Definition recap2 {S} (x : heap * S) : heap * S := (recap c m (fst x), snd x).

Lemma heapLoop_recap {S} (act : hentry -> S -> res S) fuel insp A B M me : forall p h s,
  heapLoop act fuel insp A B M me p (recap c m h) s = rmap recap2 (heapLoop act fuel insp A B M me p h s).
Proof.
  induction fuel as [|fuel IH]; intros p h s; [reflexivity|]. cbn [heapLoop].
  change (hp (recap c m h)) with (hp h). change (h_top (recap c m h)) with (h_top h).
  destruct (length (hp h) =? 0); [reflexivity|].
  destruct (h_top h) as [e|]; [|reflexivity]. cbn [bind].
  destruct (adv_mask _ _ _ _ _) as [p'|]; [|reflexivity]. cbn [bind].
  destruct (me <=? p'); [reflexivity|].
  destruct (get (colids M) p') as [m'|]; [|reflexivity]. cbn [bind].
  match goal with |- bind ?x _ = _ => destruct x as [s1|] end; [|reflexivity]. cbn [bind].
  rewrite insertNext_recap. destruct (insertNext _ _ _ _ _ _ _ _) as [h1|]; [|reflexivity]. cbn [bind rmap]. apply IH.
Qed.

Lemma heapLoopC_recap {S} (act : hentry -> S -> res S) fuel A B M me : forall p h s,
  heapLoopC act fuel A B M me p (recap c m h) s = rmap recap2 (heapLoopC act fuel A B M me p h s).
Proof.
  induction fuel as [|fuel IH]; intros p h s; [reflexivity|]. cbn [heapLoopC].
  change (hp (recap c m h)) with (hp h). change (h_top (recap c m h)) with (h_top h).
  destruct (length (hp h) =? 0); [reflexivity|].
  destruct (h_top h) as [e|]; [|reflexivity]. cbn [bind].
  destruct (adv_mask _ _ _ _ _) as [p'|]; [|reflexivity]. cbn [bind].
  destruct (me <=? p'); [reflexivity|].
  destruct (get (colids M) p') as [m'|]; [|reflexivity]. cbn [bind].
  match goal with |- bind ?x _ = _ => destruct x as [s1|] end; [|reflexivity]. cbn [bind].
  rewrite insertNext_recap. destruct (insertNext _ _ _ _ _ _ _ _) as [h1|]; [|reflexivity]. cbn [bind rmap]. apply IH.
Qed.

Lemma heapTail_recap {S} (act : hentry -> S -> res S) fuel A B M : forall h s,
  heapTail act fuel A B M (recap c m h) s = rmap recap2 (heapTail act fuel A B M h s).
Proof.
  induction fuel as [|fuel IH]; intros h s; [reflexivity|]. cbn [heapTail].
  change (hp (recap c m h)) with (hp h). change (h_top (recap c m h)) with (h_top h).
  destruct (length (hp h) =? 0); [reflexivity|].
  destruct (h_top h) as [e|]; [|reflexivity]. cbn [bind].
  destruct (act e s) as [s1|]; [|reflexivity]. cbn [bind].
  rewrite insertNext_recap. destruct (insertNext _ _ _ _ _ _ _ _) as [h1|]; [|reflexivity]. cbn [bind rmap]. apply IH.
Qed.
End Recap.

Section Recap2.
Context {V : Type}.
Implicit Types A B M : csr V.

Lemma h_append_hp h1 h2 e h1' h2' : hp h1 = hp h2 -> h_append h1 e = Ok h1' -> h_append h2 e = Ok h2' -> hp h1' = hp h2'.
Proof.
  unfold h_append. intros Hh H1 H2. destruct (_ <? hcap h1); [|discriminate]. destruct (_ <? hcap h2); [|discriminate].
  inversion H1; inversion H2; subst. cbn. rewrite Hh. reflexivity.
Qed.

Lemma initStep_hp insp A B M p me j h1 h2 h1' h2' : hp h1 = hp h2 ->
  initStep insp A B M p me j h1 = Ok h1' -> initStep insp A B M p me j h2 = Ok h2' -> hp h1' = hp h2'.
Proof.
  intros Hh. unfold initStep.
  destruct (get (colids A) j) as [inner|]; [|discriminate]. cbn [bind].
  destruct (row_bounds B inner) as [[bb be]|]; [|discriminate]. cbn [bind].
  destruct (be - bb =? 0); [intros; congruence|].
  destruct (get (colids B) bb) as [key|]; [|discriminate]. cbn [bind].
  destruct (insp =? 0)%N; [apply h_append_hp, Hh|].
  destruct (insp =? 1)%N.
  - destruct (skip_init _ _ _ _ _ _ _) as [[key' loc]|]; [|discriminate]. cbn [bind].
    destruct (loc <? be); [apply h_append_hp, Hh|intros; congruence].
  - destruct (search _ _ _ _ _ _ _ _ _) as [[[key' loc] keep]|]; [|discriminate]. cbn [bind].
    destruct keep; [apply h_append_hp, Hh|intros; congruence].
Qed.

Lemma for_hp (f : nat -> heap -> res heap) :
  (forall j h1 h2 h1' h2', hp h1 = hp h2 -> f j h1 = Ok h1' -> f j h2 = Ok h2' -> hp h1' = hp h2') ->
  forall n lo h1 h2 h1' h2', hp h1 = hp h2 -> for_n n lo f h1 = Ok h1' -> for_n n lo f h2 = Ok h2' -> hp h1' = hp h2'.
Proof.
  intros Hf. induction n as [|n IH]; intros lo h1 h2 h1' h2' Hh H1 H2; cbn [for_n] in *; [congruence|].
  destruct (f lo h1) as [x1|] eqn:E1; [|discriminate]. destruct (f lo h2) as [x2|] eqn:E2; [|discriminate].
  cbn [bind] in *. eauto.
Qed.

Lemma initHeap_hp insp A B M row p me h1 h2 h1' h2' : hp h1 = hp h2 ->
  initHeap insp A B M row p me h1 = Ok h1' -> initHeap insp A B M row p me h2 = Ok h2' -> hp h1' = hp h2'.
Proof.
  intros Hh. unfold initHeap. destruct (row_bounds A row) as [[ab ae]|]; [|discriminate]. cbn [bind].
  destruct (for_ ab ae _ h1) as [x1|] eqn:E1; [|discriminate]. destruct (for_ ab ae _ h2) as [x2|] eqn:E2; [|discriminate].
  cbn [bind]. assert (hp x1 = hp x2) as Hx.
  { unfold for_ in *. eapply for_hp; [|exact Hh|exact E1|exact E2]. intros. eapply initStep_hp; eauto. }
  unfold h_make. rewrite Hx. destruct (make_heap (hp x2)); [|discriminate]. cbn [bind]. intros X1 X2; inversion X1; inversion X2; reflexivity.
Qed.
End Recap2.

(** *** Folding the logged roots into output or a count *)
Section Fold.
Context {V : Type} (mul add : V -> V -> V).
Local Notation prod := (nat * V * V)%type.
Local Notation ladd := (fun s y => add y s).
Local Notation pcols := (fmap (fun p : prod => fst (fst p))).
Variables (A B : csr V) (itmax : nat).

Definition is_root (e : hentry) (p : prod) : Prop :=
  ek e = fst (fst p) /\ values A !! erunr e = Some (snd (fst p)) /\ values B !! eloc e = Some (snd p).

Definition grp (ps : list prod) : list (nat * V) := mrow mul ladd ps (first_touch (pcols ps)).

Lemma sorted_snoc_inv (l : list nat) x : StronglySorted le (l ++ [x]) -> StronglySorted le l /\ forall y, y ∈ l -> y <= x.
Proof.
  induction l as [|a l IH]; intros H; [split; [constructor|intros y Hy; inversion Hy]|].
  simpl in H. inversion H as [|? ? Hs Hf]; subst. destruct (IH Hs) as [H1 H2]. split.
  - constructor; [exact H1|]. apply List.Forall_app in Hf. tauto.
  - intros y Hy. apply elem_of_cons in Hy as [->|Hy]; [|auto].
    apply List.Forall_app in Hf as [_ Hf]. inversion Hf; auto.
Qed.

Lemma first_touch_sorted_last l c : StronglySorted le (l ++ [c]) ->
  exists ft0, first_touch (l ++ [c]) = ft0 ++ [c] /\ c ∉ ft0 /\ (forall j, j ∈ ft0 -> j ∈ l /\ j <> c).
Proof.
  revert c. induction l as [|d l IH] using rev_ind; intros c Hs.
  - exists []. split; [reflexivity|]. split; [intros H; inversion H|]. intros j Hj; inversion Hj.
  - destruct (sorted_snoc_inv _ _ Hs) as [Hs' Hle]. rewrite first_touch_snoc.
    destruct (decide (c ∈ l ++ [d])) as [Hin|Hnin].
    + assert (c = d) as ->.
      { destruct (sorted_snoc_inv _ _ Hs') as [_ Hle'].
        assert (d <= c) by (apply Hle; apply elem_of_app; right; left).
        apply elem_of_app in Hin as [Hin|Hin]; [specialize (Hle' c Hin); lia|].
        apply elem_of_list_singleton in Hin. exact Hin. }
      destruct (IH d Hs') as (ft0 & H1 & H2 & H3). exists ft0. split; [exact H1|]. split; [exact H2|].
      intros j Hj. destruct (H3 j Hj). split; [apply elem_of_app; left; assumption|assumption].
    + exists (first_touch (l ++ [d])). split; [reflexivity|].
      split; [rewrite elem_of_first_touch; exact Hnin|]. intros j Hj. rewrite elem_of_first_touch in Hj.
      split; [exact Hj|]. intros ->. contradiction.
Qed.

Lemma mrow_app ps l1 l2 : mrow mul ladd ps (l1 ++ l2) = mrow mul ladd ps l1 ++ mrow mul ladd ps l2.
Proof. apply omap_app. Qed.

Lemma mrow_ext ps ps' l : (forall j, j ∈ l -> colval mul ladd ps j = colval mul ladd ps' j) ->
  mrow mul ladd ps l = mrow mul ladd ps' l.
Proof.
  induction l as [|c l IH]; intros H; [reflexivity|]. rewrite !mrow_cons, (H c) by left.
  rewrite IH; [reflexivity|]. intros j Hj. apply H. right. exact Hj.
Qed.

Lemma mrow_single ps c v : colval mul ladd ps c = Some v -> mrow mul ladd ps [c] = [(c, v)].
Proof. intros H. rewrite mrow_cons, H. reflexivity. Qed.

Lemma grp_length ps : length (grp ps) = length (first_touch (pcols ps)).
Proof.
  unfold grp. rewrite <- (fmap_length fst), (mrow_cols mul ladd); [reflexivity|].
  intros j Hj. rewrite elem_of_first_touch in Hj. exact Hj.
Qed.

Lemma grp_keys ps : fst <$> grp ps = first_touch (pcols ps).
Proof. apply (mrow_cols mul ladd). intros j Hj. rewrite elem_of_first_touch in Hj. exact Hj. Qed.

Lemma grp_snoc_new ps c a b : c ∉ pcols ps -> grp (ps ++ [(c, a, b)]) = grp ps ++ [(c, mul a b)].
Proof.
  intros Hn. unfold grp. rewrite fmap_app. cbn [fmap list_fmap fst]. rewrite first_touch_snoc, decide_False by exact Hn.
  rewrite mrow_app. f_equal.
  - apply mrow_ext. intros j Hj. rewrite colval_snoc. rewrite decide_False; [reflexivity|].
    intros <-. rewrite elem_of_first_touch in Hj. contradiction.
  - apply mrow_single. rewrite colval_snoc, decide_True by reflexivity.
    apply (colval_None mul ladd) in Hn. rewrite Hn. reflexivity.
Qed.

Lemma grp_snoc_old ps c a b : StronglySorted le (pcols (ps ++ [(c, a, b)])) -> c ∈ pcols ps ->
  exists l0 v, grp ps = l0 ++ [(c, v)] /\ grp (ps ++ [(c, a, b)]) = l0 ++ [(c, add (mul a b) v)].
Proof.
  intros Hs Hin. rewrite fmap_app in Hs. cbn [fmap list_fmap fst] in Hs.
  destruct (first_touch_sorted_last _ _ Hs) as (ft0 & Hft & Hc & Hsub).
  pose proof Hft as Hft'. rewrite first_touch_snoc, decide_True in Hft' by exact Hin.
  destruct (colval mul ladd ps c) as [v|] eqn:Hv; [|apply (colval_None mul ladd) in Hv; contradiction].
  exists (mrow mul ladd ps ft0), v. unfold grp. rewrite fmap_app. cbn [fmap list_fmap fst].
  change (fmap (fun p : prod => fst (fst p)) ps) with (pcols ps) in *. rewrite Hft. rewrite Hft', !mrow_app. split.
  - f_equal. apply mrow_single, Hv.
  - f_equal.
    + apply mrow_ext. intros j Hj. rewrite colval_snoc, decide_False; [reflexivity|]. intros ->. contradiction.
    + apply mrow_single. rewrite colval_snoc, decide_True, Hv by reflexivity. reflexivity.
Qed.

Definition lastcol (ps : list prod) : nat := match last (pcols ps) with Some c => c | None => itmax end.

Lemma lastcol_snoc ps c a b : lastcol (ps ++ [(c, a, b)]) = c.
Proof. unfold lastcol. rewrite fmap_app. cbn [fmap list_fmap fst]. rewrite last_snoc. reflexivity. Qed.

(** The last column equals the next one exactly when the next one occurred before. *)
Lemma lastcol_eq ps c a b : StronglySorted le (pcols (ps ++ [(c, a, b)])) -> c < itmax ->
  (lastcol ps = c <-> c ∈ pcols ps).
Proof.
  intros Hs Hc. rewrite fmap_app in Hs. cbn [fmap list_fmap fst] in Hs.
  unfold lastcol. change (fmap (fun p : prod => fst (fst p)) ps) with (pcols ps) in *.
  destruct (pcols ps) as [|d l _] using rev_ind.
  - cbn. split; [lia|]. intros H; inversion H.
  - rewrite last_snoc. split.
    + intros ->. apply elem_of_app. right. left.
    + intros Hin. destruct (sorted_snoc_inv _ _ Hs) as [Hs' Hle]. destruct (sorted_snoc_inv _ _ Hs') as [_ Hle'].
      assert (d <= c) by (apply Hle; apply elem_of_app; right; left).
      apply elem_of_app in Hin as [Hin|Hin]; [specialize (Hle' c Hin); lia|].
      apply elem_of_list_singleton in Hin. auto.
Qed.

Lemma first_touch_prefix_le (l k : list nat) : length (first_touch l) <= length (first_touch (l ++ k)).
Proof.
  revert l. induction k as [|c k IH]; intros l; [rewrite app_nil_r; lia|].
  replace (l ++ c :: k) with ((l ++ [c]) ++ k) by (rewrite <- app_assoc; reflexivity).
  rewrite <- IH, first_touch_snoc. case_decide; [lia|]. rewrite app_length. simpl. lia.
Qed.

Lemma put_run dn cap rest : forall log done, Forall2 is_root log rest ->
  StronglySorted le (pcols (done ++ rest)) -> Forall (fun p : prod => fst (fst p) < itmax) (done ++ rest) ->
  length dn + length (first_touch (pcols (done ++ rest))) <= cap ->
  run (put mul add A B) log (lastcol done, mkOut (dn ++ grp done) cap) =
    Ok (lastcol (done ++ rest), mkOut (dn ++ grp (done ++ rest)) cap).
Proof.
  induction rest as [|[[c a] b] rest IH]; intros log done Hr Hs Hlt Hcap.
  { inversion Hr; subst. rewrite app_nil_r. reflexivity. }
  inversion Hr as [|e x log' y (He & Ha & Hb) Hr' ]; subst. cbn [fst snd] in *.
  replace (done ++ (c, a, b) :: rest) with ((done ++ [(c, a, b)]) ++ rest) in * by (rewrite <- app_assoc; reflexivity).
  assert (Hs1 : StronglySorted le (pcols (done ++ [(c, a, b)]))).
  { clear -Hs. rewrite fmap_app in Hs. revert Hs. generalize (pcols (done ++ [(c, a, b)])). intros l.
    induction l as [|d l IH]; intros Hs; [constructor|]. simpl in Hs. inversion Hs as [|? ? H1 H2]; subst.
    constructor; [auto|]. apply List.Forall_app in H2. tauto. }
  assert (Hc : c < itmax).
  { rewrite !Forall_app in Hlt. destruct Hlt as [[_ Hlt] _]. inversion Hlt; auto. }
  cbn [foldM]. rewrite <- (IH log' (done ++ [(c, a, b)])); auto.
  unfold put at 1. rewrite (get_Some _ _ _ Ha), bind_Ok, (get_Some _ _ _ Hb), bind_Ok, He.
  destruct (Nat.eqb_spec (lastcol done) c) as [Heq|Hne].
  - apply (lastcol_eq done c a b Hs1 Hc) in Heq as Hin.
    destruct (grp_snoc_old done c a b Hs1 Hin) as (l0 & v & Hg & ->). rewrite Hg.
    unfold upd_last. cbn [o_done o_cap]. rewrite app_assoc, last_snoc. cbn [bind].
    rewrite lastcol_snoc, Heq. do 3 f_equal.
    rewrite app_length. simpl. rewrite Nat.add_sub, take_app, app_assoc. reflexivity.
  - assert (c ∉ pcols done) as Hn. { rewrite <- (lastcol_eq done c a b Hs1 Hc). auto. }
    rewrite emit_Ok.
    + cbn [bind]. rewrite grp_snoc_new by exact Hn. rewrite lastcol_snoc, app_assoc. reflexivity.
    + cbn [o_done o_cap]. rewrite app_length, grp_length. rewrite (fmap_app _ (done ++ [(c, a, b)]) rest) in Hcap.
      pose proof (first_touch_prefix_le (pcols (done ++ [(c, a, b)])) (pcols rest)) as Hle.
      rewrite (fmap_app _ done [(c, a, b)]) in Hle at 1. cbn [fmap list_fmap fst] in Hle.
      rewrite first_touch_snoc in Hle.
      rewrite decide_False in Hle by exact Hn. rewrite app_length in Hle. simpl in Hle, Hcap |- *. lia.
Qed.

Lemma bump_run rest : forall log done, Forall2 is_root log rest ->
  StronglySorted le (pcols (done ++ rest)) -> Forall (fun p : prod => fst (fst p) < itmax) (done ++ rest) ->
  run bump log (lastcol done, length (first_touch (pcols done))) =
    Ok (lastcol (done ++ rest), length (first_touch (pcols (done ++ rest)))).
Proof.
  induction rest as [|[[c a] b] rest IH]; intros log done Hr Hs Hlt.
  { inversion Hr; subst. rewrite app_nil_r. reflexivity. }
  inversion Hr as [|e x log' y (He & Ha & Hb) Hr' ]; subst. cbn [fst snd] in *.
  replace (done ++ (c, a, b) :: rest) with ((done ++ [(c, a, b)]) ++ rest) in * by (rewrite <- app_assoc; reflexivity).
  assert (Hs1 : StronglySorted le (pcols (done ++ [(c, a, b)]))).
  { clear -Hs. rewrite fmap_app in Hs. revert Hs. generalize (pcols (done ++ [(c, a, b)])). intros l.
    induction l as [|d l IH]; intros Hs; [constructor|]. simpl in Hs. inversion Hs as [|? ? H1 H2]; subst.
    constructor; [auto|]. apply List.Forall_app in H2. tauto. }
  assert (Hc : c < itmax).
  { rewrite !Forall_app in Hlt. destruct Hlt as [[_ Hlt] _]. inversion Hlt; auto. }
  cbn [foldM]. rewrite <- (IH log' (done ++ [(c, a, b)])); auto.
  unfold bump at 1. rewrite He.
  assert (Hft : first_touch (pcols (done ++ [(c, a, b)])) =
    if decide (c ∈ pcols done) then first_touch (pcols done) else first_touch (pcols done) ++ [c]).
  { rewrite fmap_app. cbn [fmap list_fmap fst]. apply first_touch_snoc. }
  rewrite Hft, lastcol_snoc. destruct (Nat.eqb_spec (lastcol done) c) as [Heq|Hne]; cbn [bind].
  - apply (lastcol_eq done c a b Hs1 Hc) in Heq as Hin. rewrite decide_True by exact Hin. rewrite Heq. reflexivity.
  - assert (c ∉ pcols done) as Hn. { rewrite <- (lastcol_eq done c a b Hs1 Hc). auto. }
    rewrite decide_False by exact Hn. rewrite app_length. reflexivity.
Qed.
End Fold.
