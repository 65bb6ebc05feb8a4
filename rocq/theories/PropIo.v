(** Property C53: reading a matrix from a Matrix Market file (IO.h). *)
From Verif Require Import IoSpec IoModel IoProofs MatSpec PropMat BaseProofs.
From Verif Require Import Base Spec.
Local Open Scope list_scope.

(** The text of [f] with anything behind it, or without the newline at its end. *)
Definition file_text (f : mmfile) (t : text) : Prop :=
  (exists tail, t = render f ++ tail) \/ (mm_entries f <> [] /\ t ++ [nlc] = render f).

(** An entry in the types of the code: indices as integers, values in the value type. *)
Definition coded {V} (ofInt : Z -> V) (e : nat * nat * Z) : Z * Z * V :=
  (Z.of_nat (fst (fst e)), Z.of_nat (snd (fst e)), ofInt (snd e)).

(** ** Helpers *)
Lemma lines_app a b : lines (a ++ b) = lines a ++ lines b.
Proof. induction a as [|x a IH]; [reflexivity|]. cbn [app]. rewrite !lines_cons, IH, <- app_assoc. reflexivity. Qed.
Lemma file_text_input f t : file_text f t ->
  exists body, t = fileText (banner f :: mm_comments f) (sizeLine f) body /\ input (entryLine (mm_field f) <$> mm_entries f) body.
Proof.
  intros [(tail & ->)|[Hne E]].
  - exists (lines (entryLine (mm_field f) <$> mm_entries f) ++ tail). split; [|constructor].
    unfold render, fileText. rewrite <- !app_assoc. reflexivity.
  - destruct (exists_last Hne) as (es & e & Ee). rewrite Ee.
    exists (lines (entryLine (mm_field f) <$> es) ++ entryLine (mm_field f) e). split; [|rewrite fmap_app; constructor].
    apply (app_inj_tail _ _ nlc nlc). rewrite E. unfold render, fileText. rewrite Ee, fmap_app, lines_app. cbn [fmap list_fmap].
    rewrite (lines_cons (entryLine _ e)). change (lines []) with ([] : text). rewrite <- !app_assoc. reflexivity.
Qed.

(** All of [mm_wf] but what the comments say. *)
Definition mm_wf0 (f : mmfile) : Prop :=
  Forall (fun c => nlc ∉ c /\ nul ∉ c /\ length c <= 255) (mm_comments f) /\
  Forall (fun l => length l <= 255) (sizeLine f :: (entryLine (mm_field f) <$> mm_entries f)) /\
  (Z.of_nat (mm_rows f) <= intmax)%Z /\ (Z.of_nat (mm_cols f) <= intmax)%Z /\ (2 * Z.of_nat (length (mm_entries f)) <= intmax)%Z /\
  Forall (fun e => let '(r, c, v, fr) := e in
    1 <= r <= mm_rows f /\ 1 <= c <= mm_cols f /\ (Z.abs v <= intmax)%Z /\
    (fr = [] \/ mm_field f = Real /\ exists ds, fr = "."%char :: ds /\ Forall (fun x => isDigit x = true) ds)) (mm_entries f).
Lemma mm_wf_wf0 f : mm_wf f -> mm_wf0 f.
Proof. intros (H1 & H2). split; [|exact H2]. eapply Forall_impl; [exact H1|]. intros c (? & ? & ? & _). auto. Qed.

Definition isSym (f : mmfile) : bool := existsb (strstr (txt "symmetric")) (banner f :: mm_comments f).
Lemma banner_ok f : nlc ∉ banner f /\ nul ∉ banner f /\ length (banner f) <= 255.
Proof. unfold banner. destruct (mm_field f), (mm_symm f); vm_compute; (repeat split; [| |lia]); intros H; repeat (apply elem_of_cons in H as [H|H]; [discriminate H|]); inversion H. Qed.
Lemma read_raw {V} (ofInt : Z -> V) rand rd imax f t : (intmax <= imax)%Z -> mm_wf0 f -> file_text f t ->
  readTriples ofInt rand rd imax (Some t) = Ok (mm_rows f, mm_cols f, outs ofInt rand rd (mm_field f) (isSym f) 0 (mm_entries f)).
Proof.
  intros Hi (H1 & H2 & H3 & H4 & H5 & H6) Ht. destruct (file_text_input f t Ht) as (body & -> & Hin). inversion H2 as [|? ? Hs Hl]; subst.
  apply readTriples_ok; try assumption.
  - constructor; [apply banner_ok|exact H1].
  - apply Forall_fmap in Hl. apply Forall_forall. intros e He. rewrite Forall_forall in H6, Hl. specialize (H6 e He). specialize (Hl e He).
    destruct e as [[[r c] v] fr]. destruct H6 as (Hr & Hc & Hv & Hfr). split; [lia|]. split; [lia|]. split; [exact Hv|]. split; [|exact Hl].
    destruct Hfr as [->|(_ & ds & -> & Hd)]; [left; reflexivity|right; eauto].
Qed.
Lemma isSym_ok f : mm_wf f -> isSym f = match mm_symm f with SymNo => false | _ => true end.
Proof.
  intros (H & _). unfold isSym. cbn [existsb].
  assert (existsb (strstr (txt "symmetric")) (mm_comments f) = false) as ->.
  { apply not_true_is_false. intros Hx. apply existsb_exists in Hx as (c & Hc & Hs). apply strstr_ok in Hs. apply elem_of_list_In in Hc.
    rewrite Forall_forall in H. destruct (H c Hc) as (_ & _ & _ & Hno). exact (Hno Hs). }
  rewrite orb_false_r. unfold banner. destruct (mm_field f), (mm_symm f); vm_compute; reflexivity.
Qed.

(** The same file with another symmetry field. *)
Definition with_symm (k : symm) (f : mmfile) : mmfile := mkMM (mm_field f) k (mm_comments f) (mm_rows f) (mm_cols f) (mm_entries f).

Lemma outs_means {V} (ofInt : Z -> V) f es k :
  Forall (fun e : nat * nat * Z * text => 1 <= fst (fst (fst e)) /\ 1 <= snd (fst (fst e))) es -> mm_symm f <> SymSkew ->
  outs ofInt None false (mm_field f) (match mm_symm f with SymNo => false | _ => true end) k es =
    coded ofInt <$> mjoin (entry_means f <$> es).
Proof.
  intros H Hsk. revert k. induction H as [|[[[r c] v] fr] es (Hr & Hc) H IH]; intros k; [reflexivity|].
  cbn [fst snd] in Hr, Hc. cbn [outs]. rewrite fmap_cons. rewrite mjoin_cons, fmap_app, <- (IH (S k)). f_equal.
  unfold outOf, entry_means, coded. cbn [andb]. cbv zeta.
  destruct (mm_symm f); [|destruct (Nat.eqb_spec r c) as [->|Hne]|congruence].
  - cbn [andb fmap list_fmap fst snd]. repeat f_equal; lia.
  - rewrite Z.eqb_refl. cbn [andb negb fmap list_fmap fst snd]. repeat f_equal; lia.
  - destruct (Z.eqb_spec (Z.of_nat r) (Z.of_nat c)); [lia|]. cbn [andb negb fmap list_fmap fst snd]. repeat f_equal; lia.
Qed.
Lemma wf0_pos f : mm_wf0 f -> Forall (fun e : nat * nat * Z * text => 1 <= fst (fst (fst e)) /\ 1 <= snd (fst (fst e))) (mm_entries f).
Proof. intros (_ & _ & _ & _ & _ & H). eapply Forall_impl; [exact H|]. intros [[[r c] v] fr] (? & ? & _). cbn. lia. Qed.

(** ** C53 *)
(** Reading a well-formed file that is general or symmetric and has integer values, or no values, returns its sizes and exactly the entries
    it stands for, in order: whatever follows the last entry, and also if the last newline is missing. *)
Theorem C53_read_partial :
  forall V (ofInt : Z -> V) imax f t, (intmax <= imax)%Z -> mm_wf f -> mm_symm f <> SymSkew -> values_integral f -> file_text f t ->
  readTriples ofInt None false imax (Some t) = Ok (mm_rows f, mm_cols f, coded ofInt <$> means f).
Proof.
  intros V ofInt imax f t Hi Hwf Hsk _ Ht. rewrite (read_raw ofInt None false imax f t Hi (mm_wf_wf0 f Hwf) Ht). rewrite (isSym_ok f Hwf).
  rewrite (outs_means ofInt f _ 0 (wf0_pos f (mm_wf_wf0 f Hwf)) Hsk). reflexivity.
Qed.
Print Assumptions C53_read_partial.

(** With remove_diags, the entries off the diagonal. *)
Theorem C53_remove_diags_partial :
  forall V (ofInt : Z -> V) imax f t, (intmax <= imax)%Z -> mm_wf f -> mm_symm f <> SymSkew -> values_integral f -> file_text f t ->
  readTriples ofInt None true imax (Some t) =
    Ok (mm_rows f, mm_cols f, coded ofInt <$> filter (fun e => fst (fst e) <> snd (fst e)) (means f)).
Proof.
  intros V ofInt imax f t Hi Hwf Hsk _ Ht. rewrite (read_raw ofInt None true imax f t Hi (mm_wf_wf0 f Hwf) Ht). rewrite (isSym_ok f Hwf).
  do 2 f_equal. unfold means. pose proof (wf0_pos f (mm_wf_wf0 f Hwf)) as H. revert H. generalize (mm_entries f).
  intros es H. enough (G : forall k, outs ofInt None true (mm_field f) (match mm_symm f with SymNo => false | _ => true end) k es =
    coded ofInt <$> filter (fun e => fst (fst e) <> snd (fst e)) (mjoin (entry_means f <$> es))) by exact (G 0).
  induction H as [|[[[r c] v] fr] es (Hr & Hc) H IH]; intros k; [reflexivity|].
  cbn [fst snd] in Hr, Hc. cbn [outs]. rewrite fmap_cons. rewrite mjoin_cons, filter_app, fmap_app, <- (IH (S k)). f_equal.
  unfold outOf, entry_means, coded. cbv zeta. cbn [andb].
  destruct (Z.eqb_spec (Z.of_nat r) (Z.of_nat c)) as [E|Hne]; cbn [andb negb].
  - assert (r = c) as -> by lia. rewrite Nat.eqb_refl. destruct (mm_symm f); [| |congruence];
      (rewrite filter_cons_False by (cbn [fst snd]; lia)); reflexivity.
  - destruct (Nat.eqb_spec r c); [lia|]. destruct (mm_symm f); [| |congruence]; cbn [andb];
      repeat (rewrite filter_cons_True by (cbn [fst snd]; lia)); rewrite filter_nil; cbn [fmap list_fmap fst snd]; repeat f_equal; lia.
Qed.
Print Assumptions C53_remove_diags_partial.

(** With rand_vals, the same positions; each entry line gets one value of its own. *)
Theorem C53_rand_partial :
  forall V (ofInt : Z -> V) imax f t (rnd : nat -> V), (intmax <= imax)%Z -> mm_wf f -> mm_symm f <> SymSkew -> file_text f t ->
  readTriples ofInt (Some rnd) false imax (Some t) =
    Ok (mm_rows f, mm_cols f,
        mjoin (imap (fun k e => (fun x => (Z.of_nat (fst (fst x)), Z.of_nat (snd (fst x)), rnd k)) <$> entry_means f e) (mm_entries f))).
Proof.
  intros V ofInt imax f t rnd Hi Hwf Hsk Ht. rewrite (read_raw ofInt (Some rnd) false imax f t Hi (mm_wf_wf0 f Hwf) Ht). rewrite (isSym_ok f Hwf).
  do 2 f_equal. pose proof (wf0_pos f (mm_wf_wf0 f Hwf)) as H. revert H. generalize (mm_entries f). intros es H.
  assert (G : forall k, outs ofInt (Some rnd) false (mm_field f) (match mm_symm f with SymNo => false | _ => true end) k es =
    mjoin (imap (fun i e => (fun x => (Z.of_nat (fst (fst x)), Z.of_nat (snd (fst x)), rnd (k + i))) <$> entry_means f e) es)); [|exact (G 0)].
  induction H as [|[[[r c] v] fr] es (Hr & Hc) H IH]; intros k; [reflexivity|].
  cbn [fst snd] in Hr, Hc. cbn [outs]. rewrite imap_cons, mjoin_cons. rewrite (IH (S k)). f_equal.
  - rewrite Nat.add_0_r. unfold outOf, entry_means. cbn [andb]. cbv zeta.
    destruct (mm_symm f); [|destruct (Nat.eqb_spec r c) as [->|Hne]|congruence].
    + cbn [andb fmap list_fmap fst snd]. repeat f_equal; lia.
    + rewrite Z.eqb_refl. cbn [andb negb fmap list_fmap fst snd]. repeat f_equal; lia.
    + destruct (Z.eqb_spec (Z.of_nat r) (Z.of_nat c)); [lia|]. cbn [andb negb fmap list_fmap fst snd]. repeat f_equal; lia.
  - f_equal. apply imap_ext. intros i x _. cbn. rewrite Nat.add_succ_r. reflexivity.
Qed.
Print Assumptions C53_rand_partial.

(** [ReadASCII]: the result is one well-formed column matrix, with exactly those entries. *)
Theorem C53_read_csc_partial :
  forall V (ofInt : Z -> V) (ltV : V -> V -> Prop) (dflt : V) (stdsort : list (nat * V) -> list (nat * V)), sort_contract ltV stdsort ->
  forall imax f t, (intmax <= imax)%Z -> mm_wf f -> mm_symm f <> SymSkew -> values_integral f ->
  (mm_symm f = SymYes -> mm_rows f = mm_cols f) -> file_text f t ->
  exists X, (forall r, readASCII ofInt dflt stdsort imax (Some t) r <-> r = Ok X) /\
    wf_csc X /\ c_rows X = mm_rows f /\ c_cols X = mm_cols f /\
    triples_csc X ≡ₚ ((fun e => (fst e, ofInt (snd e))) <$> means f) /\
    forall j, j < c_cols X -> StronglySorted le (fst <$> col_entries X j).
Proof.
  intros V ofInt ltV dflt stdsort Hs imax f t Hi Hwf Hsk Hint Hsq Ht.
  pose (its := (fun e : nat * nat * Z => (fst e, ofInt (snd e))) <$> means f).
  assert (Hrange : Forall (fun x => fst (fst x) < mm_rows f /\ snd (fst x) < mm_cols f) its).
  { unfold its. apply Forall_fmap. apply Forall_forall. intros x Hx. unfold means in Hx. apply elem_of_list_join in Hx as (l & Hx & Hl).
    apply elem_of_list_fmap in Hl as (e & -> & He). destruct Hwf as (_ & _ & _ & _ & _ & H). rewrite Forall_forall in H. specialize (H e He).
    destruct e as [[[r c] v] fr]. destruct H as (Hr & Hc & _). unfold entry_means in Hx. destruct (mm_symm f) eqn:Esym; [| |congruence].
    - apply elem_of_list_singleton in Hx. subst x. cbn. lia.
    - specialize (Hsq eq_refl). destruct (r =? c).
      + apply elem_of_list_singleton in Hx. subst x. cbn. lia.
      + apply elem_of_cons in Hx as [->|Hx]; [cbn; lia|]. apply elem_of_list_singleton in Hx. subst x. cbn. lia. }
  destruct (C42_from_triples V ltV dflt stdsort Hs its _ _ Hrange) as (X & HX & Huniq & Hwf' & Hr & Hc & Htr & Hso & _).
  exists X. split; [|rewrite Hc; auto 7].
  intros r. unfold readASCII. rewrite (C53_read_partial V ofInt imax f t Hi Hwf Hsk Hint Ht). cbn [bind].
  assert (foldM (fun its '(r, c, v) => r <- asIndex r ;; c <- asIndex c ;; Ok (its ++ [(r, c, v)])) (coded ofInt <$> means f) [] = Ok its) as ->.
  { assert (G : forall l acc, foldM (fun its '(r, c, v) => r <- asIndex r ;; c <- asIndex c ;; Ok (its ++ [(r, c, v)])) (coded ofInt <$> l) acc =
      Ok (acc ++ ((fun e : nat * nat * Z => (fst e, ofInt (snd e))) <$> l))); [|exact (G (means f) [])].
    induction l as [|[[r0 c0] v0] l IH]; intros acc; [rewrite app_nil_r; reflexivity|]. rewrite !fmap_cons. cbn [foldM coded fst snd].
    unfold asIndex at 1 2. destruct (Z.leb_spec 0 (Z.of_nat r0)); [|lia]. cbn [bind]. destruct (Z.leb_spec 0 (Z.of_nat c0)); [|lia]. cbn [bind].
    rewrite !Nat2Z.id, IH, <- app_assoc. reflexivity. }
  cbn [bind]. split.
  - intros (Y & -> & HY). f_equal. apply Huniq, HY.
  - intros ->. exists X. auto.
Qed.
Print Assumptions C53_read_csc_partial.

(** Example: a symmetric file with values, one with a comment and without its last newline. *)
Definition exMM : mmfile := mkMM Integer SymYes [txt " made by hand"] 3 3 [(1, 1, 7%Z, []); (2, 1, (-4)%Z, []); (3, 2, 25%Z, [])].
Lemma exMM_wf : mm_wf exMM.
Proof.
  unfold mm_wf. split; [|split; [|split; [|split; [|split]]]].
  - apply Forall_cons. split; [|apply Forall_nil; exact I]. split; [|split; [|split]].
    1,2: vm_compute; intros H; repeat (apply elem_of_cons in H as [H|H]; [discriminate H|]); inversion H.
    + apply Nat.leb_le. vm_compute. reflexivity.
    + rewrite <- strstr_ok. vm_compute. discriminate.
  - apply Forall_forall. intros l Hl. apply Nat.leb_le. revert l Hl. rewrite <- Forall_forall.
    cbn [exMM mm_entries mm_field fmap list_fmap]. repeat (apply Forall_cons; split; [vm_compute; reflexivity|]). apply Forall_nil; exact I.
  - vm_compute. discriminate.
  - vm_compute. discriminate.
  - vm_compute. discriminate.
  - cbn [exMM mm_entries mm_rows mm_cols]. repeat (apply Forall_cons; split; [split; [lia|split; [lia|split; [vm_compute; discriminate|left; reflexivity]]]|]).
    apply Forall_nil; exact I.
Qed.
Example C53_example : mm_wf exMM /\ values_integral exMM /\
  render exMM = txt "%%MatrixMarket matrix coordinate integer symmetric
% made by hand
3 3 3
1 1 7
2 1 -4
3 2 25
" /\
  means exMM = [(0, 0, 7%Z); (1, 0, (-4)%Z); (0, 1, (-4)%Z); (2, 1, 25%Z); (1, 2, 25%Z)] /\
  readTriples id None true intmax (Some (txt "%%MatrixMarket matrix coordinate pattern general
%
2 3 3
1 3
2 2
2 1")) = Ok (2, 3, [(0%Z, 2%Z, 1%Z); (1%Z, 0%Z, 1%Z)]).
Proof. split; [exact exMM_wf|]. split; [repeat constructor|]. split; [vm_compute; reflexivity|]. split; vm_compute; reflexivity. Qed.

(** ** Findings *)
(** A skew-symmetric file is read as a symmetric one: the mirror images are not negated. *)
Theorem C53_skew_refuted :
  forall V (ofInt : Z -> V) imax f t, (intmax <= imax)%Z -> mm_wf f -> mm_symm f = SymSkew -> values_integral f -> file_text f t ->
  readTriples ofInt None false imax (Some t) = Ok (mm_rows f, mm_cols f, coded ofInt <$> means (with_symm SymYes f)).
Proof.
  intros V ofInt imax f t Hi Hwf Hsk _ Ht. rewrite (read_raw ofInt None false imax f t Hi (mm_wf_wf0 f Hwf) Ht). rewrite (isSym_ok f Hwf), Hsk.
  do 2 f_equal. apply (outs_means ofInt (with_symm SymYes f) (mm_entries f) 0 (wf0_pos f (mm_wf_wf0 f Hwf))). discriminate.
Qed.
Print Assumptions C53_skew_refuted.
Example C53_skew_example : let f := with_symm SymSkew exMM in
  coded id <$> means f <> coded id <$> means (with_symm SymYes f) /\
  (1%Z, 2%Z, (-25)%Z) ∈ coded id <$> means f /\ (1%Z, 2%Z, 25%Z) ∈ coded id <$> means (with_symm SymYes f).
Proof. vm_compute. split; [discriminate|]. split; repeat (left || right). Qed.

(** A general file with a comment that mentions the word is read as a symmetric one. *)
Theorem C53_comment_refuted :
  forall V (ofInt : Z -> V) imax f t, (intmax <= imax)%Z -> mm_wf0 f -> mm_symm f = SymNo -> values_integral f ->
  (exists c, c ∈ mm_comments f /\ occurs (txt "symmetric") c) -> file_text f t ->
  readTriples ofInt None false imax (Some t) = Ok (mm_rows f, mm_cols f, coded ofInt <$> means (with_symm SymYes f)).
Proof.
  intros V ofInt imax f t Hi Hwf Hsk _ (c & Hc & Ho) Ht. rewrite (read_raw ofInt None false imax f t Hi Hwf Ht).
  assert (isSym f = true) as ->.
  { unfold isSym. apply existsb_exists. exists c. split; [right; apply elem_of_list_In, Hc|]. apply strstr_ok, Ho. }
  do 2 f_equal. apply (outs_means ofInt (with_symm SymYes f) (mm_entries f) 0 (wf0_pos f Hwf)). discriminate.
Qed.
Print Assumptions C53_comment_refuted.
Example C53_comment_example :
  readTriples id None false intmax (Some (txt "%%MatrixMarket matrix coordinate integer general
% an unsymmetric matrix
2 2 1
1 2 5
")) = Ok (2, 2, [(0%Z, 1%Z, 5%Z); (1%Z, 0%Z, 5%Z)]).
Proof. vm_compute. reflexivity. Qed.

(** The fraction of a value is dropped, whatever it is. *)
Definition drop_fractions (f : mmfile) : mmfile :=
  mkMM (mm_field f) (mm_symm f) (mm_comments f) (mm_rows f) (mm_cols f) ((fun e => (fst e, [])) <$> mm_entries f).
Theorem C53_fraction_refuted :
  forall V (ofInt : Z -> V) imax f t t', (intmax <= imax)%Z -> mm_wf f -> mm_wf (drop_fractions f) -> file_text f t -> file_text (drop_fractions f) t' ->
  readTriples ofInt None false imax (Some t) = readTriples ofInt None false imax (Some t').
Proof.
  intros V ofInt imax f t t' Hi Hwf Hwf' Ht Ht'. rewrite (read_raw ofInt None false imax f t Hi (mm_wf_wf0 f Hwf) Ht).
  rewrite (read_raw ofInt None false imax _ t' Hi (mm_wf_wf0 _ Hwf') Ht'). rewrite (isSym_ok f Hwf), (isSym_ok _ Hwf').
  do 2 f_equal. cbn [drop_fractions mm_symm mm_field mm_entries].
  enough (G : forall sym k, outs ofInt None false (mm_field f) sym k (mm_entries f) =
    outs ofInt None false (mm_field f) sym k ((fun e : nat * nat * Z * text => (fst e, [])) <$> mm_entries f)) by apply G.
  induction (mm_entries f) as [|[[[r c] v] fr] es IH]; intros sym k; [reflexivity|]. rewrite fmap_cons. cbn [outs fst]. rewrite IH. reflexivity.
Qed.
Print Assumptions C53_fraction_refuted.
Example C53_fraction_example :
  readTriples id None false intmax (Some (txt "%%MatrixMarket matrix coordinate real general
2 2 2
1 2 0.75
2 2 -3.5
")) = Ok (2, 2, [(0%Z, 1%Z, 0%Z); (1%Z, 1%Z, (-3)%Z)]).
Proof. vm_compute. reflexivity. Qed.

(** A comment of more than 255 characters: the sizes are used uninitialised. *)
Theorem C53_long_comment_refuted :
  forall V (ofInt : Z -> V) rand rd imax c t, nlc ∉ c -> 255 < length c ->
  readTriples ofInt rand rd imax (Some ("%"%char :: c ++ t)) = Err Uninit.
Proof.
  intros V ofInt rand rd imax c t Hn Hl. unfold readTriples. cbn [openFile getc good eofb failb rest past negb andb].
  assert (G : forall k c p acc b, nlc ∉ c -> k < length c -> exists l p' r', lineLoop k p (c ++ t) acc b = (l, mkIfs p' r' false true)).
  { clear. intros k c. revert k. induction c as [|x c IH]; intros k p acc b Hn Hk; [cbn in Hk; lia|]. apply not_elem_of_cons in Hn as [Hx Hn].
    cbn [app lineLoop]. destruct (Ascii.eqb_spec x "010") as [->|_]; [destruct Hx; reflexivity|]. destruct k as [|k]; [eauto|].
    cbn [length] in Hk. apply IH; [exact Hn|lia]. }
  destruct (G 255 c ["%"%char] [] true Hn Hl) as (l & p' & r' & E).
  rewrite Nat.add_comm. change (2 + length (c ++ t)) with (S (S (length (c ++ t)))). cbn [commentLoop]. cbn [Ascii.eqb Bool.eqb].
  unfold getline at 1. cbn [good eofb failb rest past negb andb]. rewrite E. cbn [getc good eofb failb rest past negb andb].
  cbn [bind ungetc good eofb failb rest past negb andb]. unfold getline. cbn [good eofb failb rest past negb andb]. cbn. reflexivity.
Qed.
Print Assumptions C53_long_comment_refuted.
Example C53_long_comment_example : let c := replicate 256 "x"%char in nlc ∉ c /\ 255 < length c.
Proof. split; [|vm_compute; lia]. intros H. apply elem_of_replicate in H as [H _]. discriminate. Qed.

(** Two spaces between row and column: the column is taken for the value. *)
Theorem C53_spaces_refuted :
  forall V (ofInt : Z -> V) r c (v : text), (Z.of_nat r <= intmax)%Z -> (Z.of_nat c <= intmax)%Z -> noDigit v ->
  parseLine ofInt (showNat r ++ txt "  " ++ showNat c ++ v) = Ok (Z.of_nat r, Z.of_nat c, ofInt (Z.of_nat c)).
Proof.
  intros V ofInt r c v Hr Hc Hv. unfold parseLine. change (txt "  " ++ showNat c ++ v) with (" "%char :: " "%char :: showNat c ++ v).
  rewrite atoi_nat by (assumption || reflexivity). cbn [bind]. rewrite strchr_app by (apply digits_notin; [apply showNat_digits|reflexivity]).
  assert (atoi (" "%char :: showNat c ++ v) = atoi (showNat c ++ v)) as -> by reflexivity.
  rewrite (atoi_nat c v Hc Hv). cbn [bind strchr Ascii.eqb Bool.eqb]. rewrite (atoi_nat c v Hc Hv). reflexivity.
Qed.
Print Assumptions C53_spaces_refuted.
(** A line without a space (for instance with tabs, or an empty one) makes the code read behind a null pointer. *)
Theorem C53_tabs_refuted :
  forall V (ofInt : Z -> V) l z, (" "%char : ascii) ∉ l -> atoi l = Ok z -> parseLine ofInt l = Err OutOfBounds.
Proof. intros V ofInt l z H E. unfold parseLine. rewrite E. cbn [bind]. rewrite strchr_no by exact H. reflexivity. Qed.
Print Assumptions C53_tabs_refuted.
Example C53_spaces_example :
  readTriples id None false intmax (Some (txt "%%MatrixMarket matrix coordinate integer general
4 4 2
1  2 5
3 4 6
")) = Ok (4, 4, [(0%Z, 1%Z, 2%Z); (2%Z, 3%Z, 6%Z)]) /\
  readTriples id None false intmax (Some (txt "%%MatrixMarket matrix coordinate integer general
4 4 1

1 2 5
")) = Err OutOfBounds.
Proof. split; vm_compute; reflexivity. Qed.

(** A file that does not exist: the sizes are used uninitialised. *)
Theorem C53_no_file_refuted : forall V (ofInt : Z -> V) rand rd imax, readTriples ofInt rand rd imax None = Err Uninit.
Proof. intros. reflexivity. Qed.
Print Assumptions C53_no_file_refuted.

(** Whatever the bytes of the file are, reading comes to an end. *)
Theorem C53_ends : forall V (ofInt : Z -> V) rand rd imax f, readTriples ofInt rand rd imax f <> Err OutOfFuel.
Proof. intros. apply readTriples_ends. Qed.
Print Assumptions C53_ends.

(** ** Binary files *)
(** The bytes of a matrix: three sizes, row indices, column indices, values; [encI] and [encV] give the bytes of a number and of a value. *)
Definition binary {V} (encI : Z -> text) (encV : V -> text) (m n : nat) (es : list (nat * nat * V)) : text :=
  mjoin (encI <$> [Z.of_nat m; Z.of_nat n; Z.of_nat (length es)]) ++
  mjoin (encI <$> ((fun e => Z.of_nat (fst (fst e))) <$> es)) ++ mjoin (encI <$> ((fun e => Z.of_nat (snd (fst e))) <$> es)) ++
  mjoin (encV <$> (snd <$> es)).

Lemma zip3 {V} (es : list (nat * nat * V)) : zip (zip ((fun e => fst (fst e)) <$> es) ((fun e => snd (fst e)) <$> es)) (snd <$> es) = es.
Proof. induction es as [|[[r c] v] es IH]; [reflexivity|]. rewrite !fmap_cons. cbn. f_equal. exact IH. Qed.

(** Reading the bytes of a matrix with at least one row, one column and one entry gives the well-formed column matrix with exactly its entries. *)
Theorem C53_binary :
  forall V (ltV : V -> V -> Prop) (dflt : V) (stdsort : list (nat * V) -> list (nat * V)), sort_contract ltV stdsort ->
  forall szI szV decI decV encI (encV : V -> text) imax,
  (forall z, length (encI z) = szI) -> (forall v, length (encV v) = szV) ->
  (forall z, (0 <= z <= imax)%Z -> decI (encI z) = z) -> (forall v, decV (encV v) = v) ->
  forall m n es tail, 0 < m -> 0 < n -> 0 < length es -> Forall (fun x => fst (fst x) < m /\ snd (fst x) < n) es ->
  (Z.of_nat m <= imax)%Z -> (Z.of_nat n <= imax)%Z -> (Z.of_nat (length es) <= imax)%Z ->
  exists X, (forall r, readBinary szI szV decI decV dflt stdsort (Some (binary encI encV m n es ++ tail)) r <-> r = Ok (Some X)) /\
    wf_csc X /\ c_rows X = m /\ c_cols X = n /\ triples_csc X ≡ₚ es /\
    forall j, j < c_cols X -> StronglySorted le (fst <$> col_entries X j).
Proof.
  intros V ltV dflt stdsort Hs szI szV decI decV encI encV imax HlI HlV HdI HdV m n es tail Hm Hn Hes Hall Bm Bn Be.
  assert (Ebin : readBinaryArrays szI szV decI decV (Some (binary encI encV m n es ++ tail)) =
    Ok (Some (m, n, (fun e => Z.of_nat (fst (fst e))) <$> es, (fun e => Z.of_nat (snd (fst e))) <$> es, snd <$> es))).
  { unfold readBinaryArrays, binary. rewrite !fmap_cons, !mjoin_cons. cbn [fmap list_fmap mjoin list_join]. rewrite app_nil_r, <- !app_assoc.
    assert (F1 : forall z r, (0 <= z <= imax)%Z -> fread szI decI 1 (encI z ++ r) = ([z], r)).
    { intros z r Hz. rewrite <- (app_nil_r (encI z)). apply (fread_ok szI decI encI [z]); [exact HlI|].
      intros a Ha. apply elem_of_list_singleton in Ha. subst a. apply HdI, Hz. }
    rewrite F1 by lia. rewrite F1 by lia. rewrite F1 by lia. cbn [head used bind].
    destruct (Z.leb_spec (Z.of_nat m) 0); [lia|]. destruct (Z.leb_spec (Z.of_nat n) 0); [lia|]. destruct (Z.leb_spec (Z.of_nat (length es)) 0); [lia|].
    rewrite Nat2Z.id.
    assert (F2 : forall (g : nat * nat * V -> nat) r, (forall e, e ∈ es -> (Z.of_nat (g e) <= imax)%Z) ->
      fread szI decI (length es) (mjoin (encI <$> ((fun e => Z.of_nat (g e)) <$> es)) ++ r) = ((fun e => Z.of_nat (g e)) <$> es, r)).
    { intros g r Hg. rewrite <- (fmap_length (fun e => Z.of_nat (g e)) es) at 1. apply (fread_ok szI decI encI); [exact HlI|].
      intros a Ha. apply elem_of_list_fmap in Ha as (e & -> & He). apply HdI. specialize (Hg e He). lia. }
    rewrite Forall_forall in Hall.
    rewrite (F2 (fun e => fst (fst e))) by (intros e He; destruct (Hall e He); lia).
    rewrite (F2 (fun e => snd (fst e))) by (intros e He; destruct (Hall e He); lia).
    assert (F3 : fread szV decV (length es) (mjoin (encV <$> (snd <$> es)) ++ tail) = (snd <$> es, tail)).
    { rewrite <- (fmap_length snd es) at 1. apply (fread_ok szV decV encV); [exact HlV|]. intros a _. apply HdV. }
    rewrite F3, !fmap_length, Nat.eqb_refl. cbn [negb orb]. rewrite !Nat2Z.id. reflexivity. }
  pose proof (C42_from_arrays V ltV dflt stdsort Hs ((fun e => fst (fst e)) <$> es) ((fun e => snd (fst e)) <$> es) (snd <$> es) (length es) m n
    (fmap_length _ _) (fmap_length _ _) (fmap_length _ _)) as HC.
  destruct (decide (length es = 0 \/ m = 0)) as [Hbad|_]; [lia|].
  destruct HC as (X & HX & H1 & H2 & H3 & H4 & H5).
  - apply Forall_fmap. eapply Forall_impl; [exact Hall|]. intros x [? _]. assumption.
  - apply Forall_fmap. eapply Forall_impl; [exact Hall|]. intros x [_ ?]. assumption.
  - exists X. split; [|rewrite zip3 in H4; rewrite H3; auto 7].
    intros r. unfold readBinary. rewrite Ebin. cbn [bind].
    rewrite (list_fmap_compose (fun e : nat * nat * V => fst (fst e)) Z.of_nat es : ((fun e => Z.of_nat (fst (fst e))) <$> es) = _).
    rewrite (list_fmap_compose (fun e : nat * nat * V => snd (fst e)) Z.of_nat es : ((fun e => Z.of_nat (snd (fst e))) <$> es) = _).
    rewrite !asIndices. cbn [bind app]. rewrite fmap_length. split.
    + intros (Y & HY & ->). apply HX in HY. subst Y. reflexivity.
    + intros ->. exists (Ok X). split; [apply HX; reflexivity|reflexivity].
Qed.
Print Assumptions C53_binary.

(** A file that ends too early gives no matrix: the function returns -1. *)
Theorem C53_binary_short :
  forall V (dflt : V) stdsort szI szV decI decV (encI : Z -> text) m n nz (body : text),
  (forall z, length (encI z) = szI) -> decI (encI m) = m -> decI (encI n) = n -> decI (encI nz) = nz ->
  length body < Z.to_nat nz * szI + Z.to_nat nz * szI + Z.to_nat nz * szV ->
  forall r, readBinary szI szV decI decV dflt stdsort (Some (encI m ++ encI n ++ encI nz ++ body)) r <-> r = Ok None.
Proof.
  intros V dflt stdsort szI szV decI decV encI m n nz body HlI Hm Hn Hz Hlen r. unfold readBinary.
  assert (readBinaryArrays szI szV decI decV (Some (encI m ++ encI n ++ encI nz ++ body)) = Ok None) as ->; [|reflexivity].
  unfold readBinaryArrays.
  assert (F1 : forall z r, decI (encI z) = z -> fread szI decI 1 (encI z ++ r) = ([z], r)).
  { intros z r' Hz'. rewrite <- (app_nil_r (encI z)). apply (fread_ok szI decI encI [z]); [exact HlI|].
    intros a Ha. apply elem_of_list_singleton in Ha. subst a. exact Hz'. }
  rewrite F1 by exact Hm. rewrite F1 by exact Hn. rewrite F1 by exact Hz. cbn [head used bind].
  destruct (m <=? 0)%Z; [reflexivity|]. destruct (n <=? 0)%Z; [reflexivity|]. destruct (nz <=? 0)%Z; [reflexivity|].
  set (k := Z.to_nat nz) in *.
  assert (Hrest : forall A sz (dec : text -> A) s, length (fst (fread sz dec k s)) < k \/ length (snd (fread sz dec k s)) + k * sz = length s).
  { clear. intros A sz dec. induction k as [|k IH]; intros s; [right; cbn; lia|]. cbn [fread]. destruct (Nat.leb_spec sz (length s)) as [H|H]; [|left; cbn; lia].
    specialize (IH (drop sz s)). rewrite drop_length in IH. destruct (fread sz dec k (drop sz s)) as [l r]. cbn in IH |- *. lia. }
  pose proof (Hrest Z szI decI body) as R1. pose proof (fread_short szI decI k body) as S1. destruct (fread szI decI k body) as [ri s1]. cbn [fst snd] in *.
  pose proof (Hrest Z szI decI s1) as R2. pose proof (fread_short szI decI k s1) as S2. destruct (fread szI decI k s1) as [ci s2]. cbn [fst snd] in *.
  pose proof (fread_short szV decV k s2) as S3. destruct (fread szV decV k s2) as [vals s3]. cbn [fst snd] in *.
  destruct (Nat.eqb_spec (length ri) k) as [E1|]; [|reflexivity]. destruct (Nat.eqb_spec (length ci) k) as [E2|]; [|reflexivity].
  destruct (Nat.eqb_spec (length vals) k) as [E3|]; [|reflexivity]. exfalso. destruct R1 as [R1|R1]; [lia|]. destruct R2 as [R2|R2]; [lia|]. lia.
Qed.
Print Assumptions C53_binary_short.

(** Two bytes per number and value. *)
Definition enc2 (z : Z) : text := [ascii_of_nat (Z.to_nat (z mod 256)); ascii_of_nat (Z.to_nat (z / 256 mod 256))].
Definition dec2 (t : text) : Z :=
  match t with [a; b] => (Z.of_nat (nat_of_ascii a) + 256 * Z.of_nat (nat_of_ascii b))%Z | _ => 0%Z end.
Example C53_binary_example :
  readBinaryArrays 2 2 dec2 dec2 (Some (binary enc2 enc2 3 300 [(0, 299, 5%Z); (2, 1, 517%Z)])) = Ok (Some (3, 300, [0; 2]%Z, [299; 1]%Z, [5; 517]%Z)) /\
  (forall z, (0 <= z <= 65535)%Z -> dec2 (enc2 z) = z) /\
  readBinaryArrays 2 2 dec2 dec2 (Some (take 17 (binary enc2 enc2 3 300 [(0, 299, 5%Z); (2, 1, 517%Z)]))) = Ok None.
Proof.
  split; [vm_compute; reflexivity|]. split; [|vm_compute; reflexivity]. intros z Hz. unfold enc2, dec2.
  pose proof (Z.mod_pos_bound z 256 ltac:(lia)). pose proof (Z.mod_pos_bound (z / 256) 256 ltac:(lia)).
  rewrite !nat_ascii_embedding by lia. rewrite !Z2Nat.id by lia. rewrite (Z.mod_small (z / 256)).
  - pose proof (Z.div_mod z 256). lia.
  - split; [apply Z.div_pos; lia|apply Z.div_lt_upper_bound; lia].
Qed.

(** A file shorter than one number: the size is used uninitialised (fread's result is not looked at). *)
Theorem C53_binary_header_refuted :
  forall V (dflt : V) stdsort szI szV decI decV (t : text), length t < szI ->
  forall r, readBinary szI szV decI decV dflt stdsort (Some t) r <-> r = Err Uninit.
Proof.
  intros V dflt stdsort szI szV decI decV t Ht r. unfold readBinary, readBinaryArrays. cbn [fread].
  destruct (Nat.leb_spec szI (length t)); [lia|]. destruct szI as [|szI]; [lia|]. reflexivity.
Qed.
Print Assumptions C53_binary_header_refuted.
Example C53_binary_header_example : length (txt "x") < 4.
Proof. vm_compute. lia. Qed.
