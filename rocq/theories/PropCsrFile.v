(** Property C69: the constructor CSR(filename) builds the matrix a Matrix Market file stands for (CSR.h 538-645). *)
From stdpp Require Import numbers.
From Verif Require Import IoSpec IoProofs CsrFileSpec CsrFileModel CsrFileProofs MatProofs Assemble BaseProofs.
From Verif Require Import Base Spec.
Local Open Scope list_scope.

(** ** Helpers *)
Definition as_symm (k : symm) (f : mmfile) : mmfile := mkMM (mm_field f) k (mm_comments f) (mm_rows f) (mm_cols f) (mm_entries f).
Definition isGen (f : mmfile) : bool := existsb gen_in (("%"%char ::.) <$> (banner f :: mm_comments f)).

Lemma fgetsLoop_S k c t : fgetsLoop (S k) (c :: t) = if Ascii.eqb c "010" then ([c], t) else let '(l, r) := fgetsLoop k t in (c :: l, r).
Proof. reflexivity. Qed.
Lemma gen_in_pct c : gen_in ("%"%char :: c) = gen_in c.
Proof. reflexivity. Qed.
Lemma isGen_ok f : comments_quiet f -> isGen f = match mm_symm f with SymNo => true | _ => false end.
Proof.
  intros Hq. unfold isGen. rewrite fmap_cons. cbn [existsb]. rewrite gen_in_pct.
  assert (gen_in (banner f) = match mm_symm f with SymNo => true | _ => false end) as ->.
  { unfold banner. destruct (mm_field f), (mm_symm f); vm_compute; reflexivity. }
  destruct (mm_symm f) eqn:Es; [reflexivity| |]; cbn [orb]; (destruct Hq as [Hq|Hq]; [congruence|]);
    apply not_true_is_false; intros Hx; apply existsb_exists in Hx as (c & Hc & Hs); apply elem_of_list_In, elem_of_list_fmap in Hc as (d & -> & Hd);
    rewrite gen_in_pct in Hs; unfold gen_in in Hs; apply (proj1 (strstr_ok _ _)) in Hs; rewrite Forall_forall in Hq; exact (Hq d Hd Hs).
Qed.
Lemma isGen_comment f c : c ∈ mm_comments f -> occurs (txt "general") c -> isGen f = true.
Proof.
  intros Hc Ho. unfold isGen. apply existsb_exists. exists ("%"%char :: c). split.
  - apply elem_of_list_In, elem_of_list_fmap. exists c. split; [reflexivity|]. right. exact Hc.
  - rewrite gen_in_pct. unfold gen_in. apply strstr_ok, Ho.
Qed.

Lemma render_lines f : render f = lines ((("%"%char ::.) <$> (banner f :: mm_comments f)) ++ [sizeLine f] ++ (entryLine (mm_field f) <$> mm_entries f)).
Proof. unfold render. rewrite !lines_app. reflexivity. Qed.
Lemma size_plain m n k : length (showNat m ++ txt " " ++ showNat n ++ txt " " ++ showNat k) <= 254 -> plain (showNat m ++ txt " " ++ showNat n ++ txt " " ++ showNat k).
Proof.
  intros Hl.
  assert (G : forall y, isDigit y = false -> y <> " "%char -> y ∉ showNat m ++ txt " " ++ showNat n ++ txt " " ++ showNat k).
  { intros y Hy Hsp. rewrite !not_elem_of_app. repeat split; try (apply digits_notin; [apply showNat_digits|exact Hy]);
      intros Hiny; apply elem_of_list_singleton in Hiny; congruence. }
  split; [apply G; [reflexivity|discriminate]|]. split; [apply G; [reflexivity|discriminate]|exact Hl].
Qed.
Lemma banner_plain f : plain (banner f) /\ length (banner f) <= 253.
Proof.
  unfold plain, banner. destruct (mm_field f), (mm_symm f); vm_compute; (split; [split; [|split; [|lia]]|lia]);
    intros H; repeat (apply elem_of_cons in H as [H|H]; [discriminate H|]); inversion H.
Qed.
Lemma pct_plain c : nlc ∉ c -> nul ∉ c -> length c <= 253 -> plain ("%"%char :: c).
Proof. intros H1 H2 H3. split; [apply not_elem_of_cons; split; [discriminate|exact H1]|]. split; [apply not_elem_of_cons; split; [discriminate|exact H2]|]. cbn [length]. lia. Qed.
Lemma comments_plain f : comments_wf f -> Forall plain (("%"%char ::.) <$> (banner f :: mm_comments f)).
Proof.
  intros H. rewrite fmap_cons. apply Forall_cons. split.
  - destruct (banner_plain f) as [(H1 & H2 & _) H3]. apply pct_plain; assumption.
  - apply Forall_fmap. eapply Forall_impl; [exact H|]. intros c (H1 & H2 & H3). apply pct_plain; assumption.
Qed.
Lemma body_fits f : body_wf f -> Forall (fits (mm_field f)) (mm_entries f).
Proof.
  intros (Hl & Hm & Hn & _ & He & _). apply Forall_cons_1 in Hl as [_ Hl]. apply Forall_fmap in Hl. apply Forall_forall. intros e Hin.
  rewrite Forall_forall in Hl, He. specialize (Hl e Hin). specialize (He e Hin). destruct e as [[[r c] v] fr]. destruct He as (Hr & Hc & Hf).
  split; [lia|]. split; [lia|]. split; [|exact Hl]. destruct Hf as [->|[_ Hf]]; [left; reflexivity|exact Hf].
Qed.
(** A file whose size line says [k]. *)
Definition declares (k : nat) (f : mmfile) : text :=
  lines ((fun c => "%"%char :: c) <$> (banner f :: mm_comments f)) ++
  lines [showNat (mm_rows f) ++ txt " " ++ showNat (mm_cols f) ++ txt " " ++ showNat k] ++ lines (entryLine (mm_field f) <$> mm_entries f).
Lemma declares_render f : render f = declares (length (mm_entries f)) f.
Proof. reflexivity. Qed.

Lemma feed_declares k f t : body_wf f -> comments_wf f ->
  length (showNat (mm_rows f) ++ txt " " ++ showNat (mm_cols f) ++ txt " " ++ showNat k) <= 254 ->
  t = declares k f \/ t ++ [nlc] = declares k f ->
  exists fs, feed t fs /\ fst <$> fs = (("%"%char ::.) <$> (banner f :: mm_comments f)) ++
    [showNat (mm_rows f) ++ txt " " ++ showNat (mm_cols f) ++ txt " " ++ showNat k] ++ (entryLine (mm_field f) <$> mm_entries f).
Proof.
  intros Hb Hc Hs Ht. apply feed_text.
  - apply Forall_app. split; [apply comments_plain, Hc|]. apply Forall_app. split; [apply Forall_cons; split; [apply size_plain, Hs|constructor]|].
    apply Forall_fmap. eapply Forall_impl; [apply body_fits, Hb|]. intros e He. apply fits_plain, He.
  - apply Forall_app. split; [apply Forall_fmap, Forall_forall; intros c _; discriminate|]. apply Forall_app. split.
    + apply Forall_cons. split; [|constructor]. destruct (showNat_cons (mm_rows f)) as (x & l & -> & _). discriminate.
    + apply Forall_fmap, Forall_forall. intros e _. apply entryLine_ne.
  - unfold declares in Ht. rewrite <- !lines_app in Ht. exact Ht.
Qed.

Section Read.
Context {V : Type} (atof : text -> V) (num : Z -> text -> V) (zero one : V) (neg : V -> V) (szV : nat).

Lemma items_stands f (gen : bool) : Forall (fun e : nat * nat * Z * text => let '(r, c, _, _) := e in 1 <= r /\ 1 <= c) (mm_entries f) ->
  items gen (nOf num one (mm_field f) <$> mm_entries f) =
    (fun e : nat * nat * V => (fst (fst e), (snd (fst e), snd e))) <$> stands num one neg (as_symm (if gen then SymNo else SymYes) f).
Proof.
  intros H. unfold stands, as_symm. cbn [mm_entries]. induction H as [|[[[r c] v] fr] es (Hr & Hc) H IH]; [reflexivity|].
  rewrite !fmap_cons, items_cons, IH, mjoin_cons, fmap_app. f_equal. unfold spread, nOf, stands1, val. cbn [mm_field mm_symm].
  destruct gen.
  - rewrite andb_false_r. reflexivity.
  - rewrite andb_true_r. destruct (Nat.eqb_spec r c) as [->|Hne]; [rewrite Nat.eqb_refl; reflexivity|].
    destruct (Nat.eqb_spec (c - 1) (r - 1)); [lia|]. reflexivity.
Qed.
Lemma bucket_in_row (l : list (nat * nat * V)) r :
  bucket ((fun e : nat * nat * V => (fst (fst e), (snd (fst e), snd e))) <$> l) r = in_row l r.
Proof.
  unfold bucket, in_row. induction l as [|e l IH]; [reflexivity|]. rewrite fmap_cons, !filter_cons. cbn [fst snd].
  destruct (decide (fst (fst e) = r)); [rewrite !fmap_cons; f_equal; exact IH|exact IH].
Qed.

(** The file is read as a general one if the word occurs in its comments, and otherwise as a symmetric one. *)
Lemma read_as k f t fuel : reads num atof -> 1 <= szV -> body_wf f -> comments_wf f -> (isGen f = false -> mm_rows f = mm_cols f) ->
  t = declares k f \/ t ++ [nlc] = declares k f -> length (mm_entries f) <= k -> (Z.of_nat (k + length (mm_entries f)) <= intmax)%Z ->
  length (showNat (mm_rows f) ++ txt " " ++ showNat (mm_cols f) ++ txt " " ++ showNat k) <= 254 ->
  length (mm_comments f) + 1 < fuel ->
  let L := stands num one neg (as_symm (if isGen f then SymNo else SymYes) f) in
  exists ids vals, csrOfFile atof zero one 4 szV fuel (Some t) =
    Ok (mkCsr (mm_rows f) (mm_cols f) (k - length (mm_entries f) + length L) (pre (in_row L) <$> seq 0 (mm_rows f + 1)) ids vals) /\
    take (length L) ids = fst <$> rowsOf (in_row L) 0 (mm_rows f) /\ take (length L) vals = snd <$> rowsOf (in_row L) 0 (mm_rows f) /\
    length ids = k - length (mm_entries f) + length L /\ length vals = k - length (mm_entries f) + length L /\
    length (mm_entries f) <= length L /\ pre (in_row L) (mm_rows f) = length L /\
    (forall i c v, (c, v) ∈ in_row L i -> c < mm_cols f).
Proof.
  intros Ha Hsz Hb Hc Hsq Ht Hk Hk2 Hs Hfu L. destruct (feed_declares k f t Hb Hc Hs Ht) as (fs & Hfeed & Hfs).
  pose proof (body_fits f Hb) as Hfits. destruct Hb as (Hlen & Hm & Hn & Hne & He & Hsym).
  assert (Hrange : Forall (fun e : nat * nat * Z * text => let '(r, c, _, _) := e in 1 <= r <= mm_rows f /\ 1 <= c <= mm_cols f) (mm_entries f)).
  { eapply Forall_impl; [exact He|]. intros [[[r c] v] fr] (? & ? & _). auto. }
  destruct (csrOfFile_ok atof num zero one (mm_field f) Ha 4 szV fuel (banner f :: mm_comments f) (mm_rows f) (mm_cols f) k (mm_entries f) t fs (isGen f)
    eq_refl Hsz Hfeed Hfs ltac:(cbn [length]; lia) eq_refl Hm Hn Hfits Hrange Hk Hk2 Hsq) as (ids & vals & E & Ti & Tv & Li & Lv).
  set (its := items (isGen f) (nOf num one (mm_field f) <$> mm_entries f)) in *.
  assert (Eits : its = (fun e : nat * nat * V => (fst (fst e), (snd (fst e), snd e))) <$> L).
  { apply items_stands. eapply Forall_impl; [exact Hrange|]. intros [[[r c] v] fr] (? & ?). lia. }
  assert (EL : length its = length L) by (rewrite Eits; apply fmap_length).
  assert (Hle : length (mm_entries f) <= length its).
  { pose proof (items_length (isGen f) (nOf num one (mm_field f) <$> mm_entries f)) as H. fold its in H. rewrite fmap_length in H. lia. }
  assert (Hbk : forall r, bucket its r = in_row L r) by (intros r; rewrite Eits; apply bucket_in_row).
  assert (Hkeys : Forall (fun x => fst x < mm_rows f /\ fst (snd x) < mm_cols f) its).
  { rewrite Eits. apply Forall_fmap, Forall_forall. intros x Hx. unfold compose. cbn [fst snd]. unfold L, stands in Hx. apply elem_of_list_join in Hx as (y & Hx & Hy).
    apply elem_of_list_fmap in Hy as (e & -> & Hin). cbn [as_symm mm_entries] in Hin. rewrite Forall_forall in Hrange. specialize (Hrange e Hin).
    destruct e as [[[r c] v] fr]. unfold stands1, as_symm in Hx. cbn [mm_symm mm_field] in Hx. destruct (isGen f).
    - apply elem_of_list_singleton in Hx as ->. cbn [fst snd]. lia.
    - specialize (Hsq eq_refl). destruct (r =? c); rewrite ?elem_of_cons, ?elem_of_nil in Hx.
      + destruct Hx as [-> | []]. cbn [fst snd]. lia.
      + destruct Hx as [-> | [-> | []]]; cbn [fst snd]; lia. }
  exists ids, vals. rewrite E. rewrite EL in *.
  assert (Epre : (pre (bucket its) <$> seq 0 (mm_rows f + 1)) = (pre (in_row L) <$> seq 0 (mm_rows f + 1))).
  { apply list_fmap_ext. intros. apply pre_ext. intros. apply Hbk. }
  rewrite (rowsOf_ext (bucket its) (in_row L)) in Ti, Tv by (intros; apply Hbk).
  split; [rewrite Epre; do 2 f_equal; lia|]. split; [exact Ti|]. split; [exact Tv|]. split; [lia|]. split; [lia|]. split; [lia|]. split.
  - rewrite <- (pre_ext (bucket its) (in_row L)) by (intros; apply Hbk). rewrite pre_total; [exact EL|].
    eapply Forall_impl; [exact Hkeys|]. intros x [? _]. assumption.
  - intros i c v Hin. rewrite <- Hbk in Hin. unfold bucket in Hin. apply elem_of_list_fmap in Hin as (x & Ex & Hx). apply elem_of_list_filter in Hx as [_ Hx].
    rewrite Forall_forall in Hkeys. destruct (Hkeys x Hx) as [_ H]. rewrite <- Ex in H. exact H.
Qed.

Lemma read_whole f t fuel : reads num atof -> 1 <= szV -> body_wf f -> comments_wf f -> (isGen f = false -> mm_rows f = mm_cols f) ->
  whole_text f t -> length (mm_comments f) + 1 < fuel ->
  let L := stands num one neg (as_symm (if isGen f then SymNo else SymYes) f) in
  exists X, csrOfFile atof zero one 4 szV fuel (Some t) = Ok X /\ wf X /\ rows X = mm_rows f /\ cols X = mm_cols f /\ nnz X = length L /\
    forall r, r < rows X -> row_entries X r = in_row L r.
Proof.
  intros Ha Hsz Hb Hc Hsq Ht Hfu L. assert (Hb' := Hb). destruct Hb' as (Hlen & _ & _ & Hne & _). apply Forall_cons_1 in Hlen as [Hs _].
  destruct (read_as (length (mm_entries f)) f t fuel Ha Hsz Hb Hc Hsq Ht (le_n _) ltac:(lia) Hs Hfu) as (ids & vals & E & Ti & Tv & Li & Lv & Hle & Htot & Hcol).
  fold L in E, Ti, Tv, Li, Lv, Hle, Htot, Hcol. rewrite Nat.sub_diag, Nat.add_0_l in *.
  rewrite take_ge in Ti by lia. rewrite take_ge in Tv by lia. subst ids vals.
  exists (assemble (in_row L) (mm_rows f) (mm_cols f)). split.
  { rewrite E. unfold assemble. rewrite Htot. reflexivity. }
  split; [apply assemble_wf; intros i c v _; apply Hcol|]. split; [reflexivity|]. split; [reflexivity|]. split; [exact Htot|].
  intros r Hr. apply assemble_row. exact Hr.
Qed.
End Read.

(** ** C69 *)
(** A general or symmetric file, with or without its last newline: the constructor ends without a fault and builds a well-formed matrix with the sizes of the
    file, with as many entries as the file stands for, and with the entries of each row in the order of the file. *)
Theorem C69_read_partial :
  forall V (atof : text -> V) num zero one neg szV f t fuel, reads num atof -> 1 <= szV ->
  body_wf f -> comments_wf f -> comments_quiet f -> mm_symm f <> SymSkew -> whole_text f t -> length (mm_comments f) + 1 < fuel ->
  exists X, csrOfFile atof zero one 4 szV fuel (Some t) = Ok X /\ wf X /\ rows X = mm_rows f /\ cols X = mm_cols f /\
    nnz X = length (stands num one neg f) /\
    forall r, r < rows X -> row_entries X r = in_row (stands num one neg f) r.
Proof.
  intros V atof num zero one neg szV f t fuel Ha Hsz Hb Hc Hq Hsk Ht Hfu. pose proof (isGen_ok f Hq) as Hg.
  assert (Hsq : isGen f = false -> mm_rows f = mm_cols f).
  { intros H. rewrite Hg in H. destruct Hb as (_ & _ & _ & _ & _ & [Hb|Hb]); [rewrite Hb in H; discriminate|exact Hb]. }
  destruct (read_whole atof num zero one neg szV f t fuel Ha Hsz Hb Hc Hsq Ht Hfu) as (X & E & H).
  assert (Ef : as_symm (if isGen f then SymNo else SymYes) f = f).
  { rewrite Hg. destruct f as [k s cs m n es]. unfold as_symm. cbn [mm_symm mm_field mm_comments mm_rows mm_cols mm_entries] in *. destruct s; [reflexivity|reflexivity|congruence]. }
  rewrite Ef in H. exists X. auto.
Qed.
Print Assumptions C69_read_partial.

(** Sortedness, when the entries come column by column and (in a symmetric file) from the lower triangle. *)
Theorem C69_sorted_partial :
  forall V (atof : text -> V) num zero one szV f t fuel X, reads num atof -> 1 <= szV ->
  body_wf f -> comments_wf f -> comments_quiet f -> mm_symm f <> SymSkew -> whole_text f t -> length (mm_comments f) + 1 < fuel ->
  by_column f -> mm_symm f = SymNo \/ lower f ->
  csrOfFile atof zero one 4 szV fuel (Some t) = Ok X -> sorted_rows X.
Proof.
  intros V atof num zero one szV f t fuel X Ha Hsz Hb Hc Hq Hsk Ht Hfu Hord Hlow EX.
  destruct (C69_read_partial V atof num zero one id szV f t fuel Ha Hsz Hb Hc Hq Hsk Ht Hfu) as (X' & E & _ & _ & _ & _ & Hrow).
  rewrite EX in E. injection E as <-. intros i Hi. unfold row_cols. rewrite (Hrow i Hi). clear Hrow EX Hi X Ht Hfu t fuel.
  assert (Hpos : Forall (fun e : nat * nat * Z * text => 1 <= fst (fst (fst e)) /\ 1 <= snd (fst (fst e))) (mm_entries f)).
  { destruct Hb as (_ & _ & _ & _ & He & _). eapply Forall_impl; [exact He|]. intros [[[r c] v] fr] (? & ? & _). cbn [fst snd]. lia. }
  assert (Hlow' : mm_symm f = SymYes -> lower f) by (intros H; destruct Hlow as [H'|H']; [congruence|exact H']).
  clear Hb Hc Hq Hlow Ha Hsz. unfold stands, lower, by_column in *.
  (* a later entry contributes a larger column to row [i] *)
  induction Hord as [|e es Hord IH Hall]; [constructor|].
  apply Forall_cons_1 in Hpos as [Hpe Hpos].
  assert (Hl1 : mm_symm f = SymYes -> snd (fst (fst e)) <= fst (fst (fst e)) /\ Forall (fun e : nat * nat * Z * text => snd (fst (fst e)) <= fst (fst (fst e))) es).
  { intros H. specialize (Hlow' H). apply Forall_cons_1 in Hlow'. exact Hlow'. }
  specialize (IH Hpos (fun H => proj2 (Hl1 H))).
  rewrite fmap_cons, mjoin_cons. unfold in_row in *. rewrite filter_app, !fmap_app.
  assert (G : forall c, c ∈ fst <$> ((fun e : nat * nat * V => (snd (fst e), snd e)) <$> filter (fun e => fst (fst e) = i) (mjoin (stands1 num one id f <$> es))) ->
    exists x, x ∈ es /\ ((fst (fst (fst x)) - 1 = i /\ c = snd (fst (fst x)) - 1) \/
      (mm_symm f = SymYes /\ fst (fst (fst x)) <> snd (fst (fst x)) /\ snd (fst (fst x)) - 1 = i /\ c = fst (fst (fst x)) - 1))).
  { intros c Hin. apply elem_of_list_fmap in Hin as (y & -> & Hy). apply elem_of_list_fmap in Hy as (z & -> & Hz). apply elem_of_list_filter in Hz as [Hzi Hz].
    apply elem_of_list_join in Hz as (w & Hz & Hw). apply elem_of_list_fmap in Hw as (x & -> & Hx). exists x. split; [exact Hx|].
    destruct x as [[[r c] v] fr]. unfold stands1 in Hz. cbn [fst snd]. destruct (mm_symm f); [| |congruence].
    - apply elem_of_list_singleton in Hz as ->. cbn [fst snd] in *. left. auto.
    - destruct (Nat.eqb_spec r c) as [->|Hne]; rewrite ?elem_of_cons, ?elem_of_nil in Hz.
      + destruct Hz as [-> | []]. cbn [fst snd] in *. left. auto.
      + destruct Hz as [-> | [-> | []]]; cbn [fst snd] in *; [left|right]; auto. }
  set (A := fst <$> ((fun e : nat * nat * V => (snd (fst e), snd e)) <$> filter (fun e => fst (fst e) = i) (stands1 num one id f e))).
  set (B := fst <$> ((fun e : nat * nat * V => (snd (fst e), snd e)) <$> filter (fun e => fst (fst e) = i) (mjoin (stands1 num one id f <$> es)))) in *.
  assert (HA : A = [] \/ exists a, A = [a] /\ ((fst (fst (fst e)) - 1 = i /\ a = snd (fst (fst e)) - 1) \/
      (mm_symm f = SymYes /\ fst (fst (fst e)) <> snd (fst (fst e)) /\ snd (fst (fst e)) - 1 = i /\ a = fst (fst (fst e)) - 1))).
  { unfold A. destruct e as [[[r c] v] fr]. unfold stands1. cbn [fst snd] in *. destruct (mm_symm f); [| |congruence].
    - rewrite filter_cons, filter_nil. cbn [fst snd]. destruct (decide (r - 1 = i)); [|left; reflexivity]. right. eexists. split; [reflexivity|]. left. auto.
    - destruct (Nat.eqb_spec r c) as [->|Hne]; rewrite !filter_cons, filter_nil; cbn [fst snd].
      + destruct (decide (c - 1 = i)); [|left; reflexivity]. right. eexists. split; [reflexivity|]. left. auto.
      + destruct (decide (r - 1 = i)), (decide (c - 1 = i)); [lia| | |left; reflexivity]; right; eexists; (split; [reflexivity|]); [left|right]; auto. }
  destruct HA as [-> | (a & -> & HA)]; [exact IH|]. cbn [app]. constructor; [exact IH|]. apply Forall_forall. intros c Hcin. destruct (G c Hcin) as (x & Hx & Hxc).
  rewrite Forall_forall in Hall. specialize (Hall x Hx). rewrite Forall_forall in Hpos. specialize (Hpos x Hx).
  assert (Hlx : mm_symm f = SymYes -> snd (fst (fst x)) <= fst (fst (fst x))).
  { intros H. destruct (Hl1 H) as [_ Hl]. rewrite Forall_forall in Hl. exact (Hl x Hx). }
  assert (Hle : mm_symm f = SymYes -> snd (fst (fst e)) <= fst (fst (fst e))) by (intros H; apply (Hl1 H)).
  destruct HA as [[HA1 HA2]|(Hs & HA1 & HA2 & HA3)], Hxc as [[Hx1 Hx2]|(Hs' & Hx1 & Hx2 & Hx3)].
  - lia.
  - specialize (Hle Hs'). specialize (Hlx Hs'). lia.
  - specialize (Hle Hs). specialize (Hlx Hs). lia.
  - specialize (Hle Hs). specialize (Hlx Hs). lia.
Qed.
Print Assumptions C69_sorted_partial.

(** Example: numbers as texts; the function that reads one stops at the end of the line. *)
Fixpoint upToNl (t : text) : text := match t with [] => [] | c :: t => if Ascii.eqb c nlc then [] else c :: upToNl t end.
Definition numText (v : Z) (fr : text) : text := showZ v ++ fr.
Lemma upToNl_reads : reads numText upToNl.
Proof.
  intros v fr t Hf Ht. unfold numText. rewrite app_assoc. assert (Hn : nlc ∉ showZ v ++ fr).
  { apply not_elem_of_app. split; [apply showZ_notin; [reflexivity|discriminate]|]. apply (fraction_notin fr nlc Hf); [reflexivity|discriminate]. }
  induction (showZ v ++ fr) as [|c l IH]; [destruct Ht as [-> | ->]; reflexivity|]. apply not_elem_of_cons in Hn as [Hc Hn]. cbn [app upToNl].
  destruct (Ascii.eqb_spec c nlc) as [->|_]; [congruence|]. rewrite IH by exact Hn. reflexivity.
Qed.
Definition exFile : mmfile := mkMM Real SymYes [txt " made by hand"] 3 3 [(1, 1, 7%Z, []); (2, 1, (-4)%Z, txt ".5"); (3, 1, 0%Z, txt ".25"); (3, 2, 25%Z, [])].
Lemma exFile_wf : body_wf exFile /\ comments_wf exFile /\ comments_quiet exFile.
Proof.
  split; [|split].
  - split; [|split; [|split; [|split; [|split]]]].
    + apply Forall_forall. intros l Hl. apply Nat.leb_le. revert l Hl. rewrite <- Forall_forall.
      cbn [exFile mm_entries mm_field fmap list_fmap]. repeat (apply Forall_cons; split; [vm_compute; reflexivity|]). apply Forall_nil; exact I.
    + vm_compute. discriminate.
    + vm_compute. discriminate.
    + vm_compute. discriminate.
    + cbn [exFile mm_entries mm_rows mm_cols mm_field]. apply Forall_cons. split; [split; [lia|split; [lia|left; reflexivity]]|].
      do 2 (apply Forall_cons; split; [split; [lia|split; [lia|right; split; [reflexivity|right; eexists; split; [reflexivity|repeat constructor]]]]|]).
      apply Forall_cons. split; [split; [lia|split; [lia|left; reflexivity]]|]. apply Forall_nil; exact I.
    + right. reflexivity.
  - apply Forall_cons. split; [|apply Forall_nil; exact I]. split; [|split].
    1,2: vm_compute; intros H; repeat (apply elem_of_cons in H as [H|H]; [discriminate H|]); inversion H.
    apply Nat.leb_le. vm_compute. reflexivity.
  - right. apply Forall_cons. split; [|apply Forall_nil; exact I]. intros H. apply strstr_ok in H. vm_compute in H. discriminate.
Qed.
Example C69_example : reads numText upToNl /\ body_wf exFile /\ comments_wf exFile /\ comments_quiet exFile /\ by_column exFile /\ lower exFile /\
  render exFile = txt "%%MatrixMarket matrix coordinate real symmetric
% made by hand
3 3 4
1 1 7
2 1 -4.5
3 1 0.25
3 2 25
" /\
  csrOfFile upToNl [] (txt "1") 4 8 3 (Some (render exFile)) =
    Ok (mkCsr 3 3 7 [0; 3; 5; 7] [0; 1; 2; 0; 2; 0; 1] (txt <$> ["7"; "-4.5"; "0.25"; "-4.5"; "25"; "0.25"; "25"]%string)).
Proof.
  split; [exact upToNl_reads|]. split; [apply exFile_wf|]. split; [apply exFile_wf|]. split; [apply exFile_wf|]. split; [|split; [|split; vm_compute; reflexivity]].
  - unfold by_column. cbn [exFile mm_entries]. repeat (constructor; [|repeat constructor; cbn [fst snd]; lia]). constructor.
  - unfold lower. cbn [exFile mm_entries]. repeat (apply Forall_cons; split; [cbn [fst snd]; lia|]). apply Forall_nil; exact I.
Qed.

(** ** Findings *)
(** A skew-symmetric file is read as a symmetric one: the mirror images are not negated. *)
Theorem C69_skew_refuted :
  forall V (atof : text -> V) num zero one neg szV f t fuel, reads num atof -> 1 <= szV ->
  body_wf f -> comments_wf f -> comments_quiet f -> mm_symm f = SymSkew -> whole_text f t -> length (mm_comments f) + 1 < fuel ->
  exists X, csrOfFile atof zero one 4 szV fuel (Some t) = Ok X /\
    forall r, r < rows X -> row_entries X r = in_row (stands num one neg (as_symm SymYes f)) r.
Proof.
  intros V atof num zero one neg szV f t fuel Ha Hsz Hb Hc Hq Hsk Ht Hfu. pose proof (isGen_ok f Hq) as Hg. rewrite Hsk in Hg.
  assert (Hsq : isGen f = false -> mm_rows f = mm_cols f).
  { intros _. destruct Hb as (_ & _ & _ & _ & _ & [Hb|Hb]); [congruence|exact Hb]. }
  destruct (read_whole atof num zero one neg szV f t fuel Ha Hsz Hb Hc Hsq Ht Hfu) as (X & E & _ & _ & _ & _ & H). rewrite Hg in H. exists X. auto.
Qed.
Print Assumptions C69_skew_refuted.

(** A symmetric file with a comment that contains the word "general" loses the mirror images. *)
Theorem C69_comment_refuted :
  forall V (atof : text -> V) num zero one neg szV f t fuel c, reads num atof -> 1 <= szV ->
  body_wf f -> comments_wf f -> c ∈ mm_comments f -> occurs (txt "general") c -> whole_text f t -> length (mm_comments f) + 1 < fuel ->
  exists X, csrOfFile atof zero one 4 szV fuel (Some t) = Ok X /\ nnz X = length (mm_entries f) /\
    forall r, r < rows X -> row_entries X r = in_row (stands num one neg (as_symm SymNo f)) r.
Proof.
  intros V atof num zero one neg szV f t fuel c Ha Hsz Hb Hc Hin Ho Ht Hfu. pose proof (isGen_comment f c Hin Ho) as Hg.
  destruct (read_whole atof num zero one neg szV f t fuel Ha Hsz Hb Hc ltac:(congruence) Ht Hfu) as (X & E & _ & _ & _ & Hn & H). rewrite Hg in H, Hn.
  exists X. split; [exact E|]. split; [|exact H]. rewrite Hn. unfold stands, as_symm. cbn [mm_entries].
  clear. change (mkMM _ _ _ _ _ _) with (as_symm SymNo f). induction (mm_entries f) as [|[[[r c] v] fr] es IH]; [reflexivity|].
  rewrite fmap_cons, mjoin_cons, app_length. cbn [length]. rewrite <- IH. reflexivity.
Qed.
Print Assumptions C69_comment_refuted.
Example C69_symmetry_example :
  csrOfFile upToNl [] (txt "1") 4 8 2 (Some (txt "%%MatrixMarket matrix coordinate real skew-symmetric
2 2 1
2 1 5
")) = Ok (mkCsr 2 2 2 [0; 1; 2] [1; 0] [txt "5"; txt "5"]) /\
  csrOfFile upToNl [] (txt "1") 4 8 3 (Some (txt "%%MatrixMarket matrix coordinate real symmetric
% a general model
2 2 1
2 1 5
")) = Ok (mkCsr 2 2 1 [0; 0; 1] [0] [txt "5"]).
Proof. split; vm_compute; reflexivity. Qed.

(** More entry lines than the size line says: the arrays are written out of bounds. *)
Theorem C69_more_refuted :
  forall V (atof : text -> V) num zero one szV f t fuel k, reads num atof -> body_wf f -> comments_wf f -> k < length (mm_entries f) ->
  length (showNat (mm_rows f) ++ txt " " ++ showNat (mm_cols f) ++ txt " " ++ showNat k) <= 254 ->
  t = declares k f \/ t ++ [nlc] = declares k f -> length (mm_comments f) + 1 < fuel ->
  csrOfFile atof zero one 4 szV fuel (Some t) = Err OutOfBounds.
Proof.
  intros V atof num zero one szV f t fuel k Ha Hb Hc Hk Hs Ht Hfu. destruct (feed_declares k f t Hb Hc Hs Ht) as (fs & Hfeed & Hfs).
  pose proof (body_fits f Hb) as Hfits. destruct Hb as (Hlen & Hm & Hn & Hne & He & Hsym).
  destruct (head_ok fuel (banner f :: mm_comments f) (mm_rows f) (mm_cols f) k (entryLine (mm_field f) <$> mm_entries f) t fs (isGen f) Hfeed Hfs
    ltac:(cbn [length]; lia) eq_refl) as (line & t' & fe & Eh & Es & Hf' & Ee); [lia..|].
  unfold csrOfFile. rewrite Eh, bind_Ok. cbn beta iota. rewrite Es, bind_Ok. cbn [lookup list_lookup]. unfold storedInt. cbn [used bind Nat.eqb].
  assert (asSize (Z.of_nat k) = Ok k) as -> by apply asIndex_nat. rewrite bind_Ok.
  destruct (lookup_lt_is_Some_2 (mm_entries f) k Hk) as [e Hek]. pose proof (take_drop_middle _ _ _ Hek) as Eds. rewrite <- Eds in Ee, Hfits.
  pose proof (cooLoop_more atof num one (mm_field f) Ha fe (take k (mm_entries f)) e (drop (S k) (mm_entries f)) (length t' + 1) t' [] (replicate k None) Ee Hf' Hfits) as HC.
  cbn [length] in HC. rewrite HC; [reflexivity| |reflexivity|].
  - pose proof (feed_length t' fe Hf'). lia.
  - rewrite replicate_length, take_length. lia.
Qed.
Print Assumptions C69_more_refuted.

(** Fewer entry lines than the size line says: nnz counts entries that are not there, and the matrix is not well-formed. *)
Theorem C69_fewer_refuted :
  forall V (atof : text -> V) num zero one szV f t fuel k, reads num atof -> 1 <= szV ->
  body_wf f -> comments_wf f -> comments_quiet f -> length (mm_entries f) < k -> (Z.of_nat (k + length (mm_entries f)) <= intmax)%Z ->
  length (showNat (mm_rows f) ++ txt " " ++ showNat (mm_cols f) ++ txt " " ++ showNat k) <= 254 ->
  t = declares k f \/ t ++ [nlc] = declares k f -> length (mm_comments f) + 1 < fuel ->
  exists X, csrOfFile atof zero one 4 szV fuel (Some t) = Ok X /\ ~ wf X.
Proof.
  intros V atof num zero one szV f t fuel k Ha Hsz Hb Hc Hq Hk Hk2 Hs Ht Hfu. pose proof (isGen_ok f Hq) as Hg.
  assert (Hsq : isGen f = false -> mm_rows f = mm_cols f).
  { intros H. rewrite Hg in H. destruct Hb as (_ & _ & _ & _ & _ & [Hb|Hb]); [rewrite Hb in H; discriminate|exact Hb]. }
  destruct (read_as atof num zero one id szV k f t fuel Ha Hsz Hb Hc Hsq Ht ltac:(lia) Hk2 Hs Hfu) as (ids & vals & E & _ & _ & _ & _ & _ & Htot & _).
  eexists. split; [exact E|]. intros Hw. destruct Hw as [_ _ _ Hlast _ _ _]. cbn [rowptr rows nnz] in Hlast.
  rewrite seq_fmap_lookup in Hlast by lia. injection Hlast as Hlast. lia.
Qed.
Print Assumptions C69_fewer_refuted.
Example C69_count_example :
  csrOfFile upToNl [] (txt "1") 4 8 2 (Some (txt "%%MatrixMarket matrix coordinate pattern general
2 2 1
2 1
1 1
")) = Err OutOfBounds /\
  csrOfFile upToNl [] (txt "1") 4 8 2 (Some (txt "%%MatrixMarket matrix coordinate pattern general
2 2 3
2 1
1 1
")) = Ok (mkCsr 2 2 3 [0; 1; 2] [0; 0; 0] [txt "1"; txt "1"; []]).
Proof. split; vm_compute; reflexivity. Qed.

(** An empty line at the end of the file: a null pointer is advanced and read. *)
Theorem C69_blank_refuted :
  forall V (atof : text -> V) num zero one szV f fuel, reads num atof -> body_wf f -> comments_wf f -> length (mm_comments f) + 1 < fuel ->
  csrOfFile atof zero one 4 szV fuel (Some (render f ++ [nlc])) = Err OutOfBounds.
Proof.
  intros V atof num zero one szV f fuel Ha Hb Hc Hfu. pose proof (body_fits f Hb) as Hfits. assert (Hb' := Hb). destruct Hb' as (Hlen & Hm & Hn & Hne & He & Hsym).
  apply Forall_cons_1 in Hlen as [Hs _].
  set (ls := (entryLine (mm_field f) <$> mm_entries f) ++ [[]]).
  assert (Hfeed : feed (render f ++ [nlc]) ((fun l => (l, [nlc])) <$> ((("%"%char ::.) <$> (banner f :: mm_comments f)) ++ [sizeLine f] ++ ls))).
  { assert (render f ++ [nlc] = lines ((("%"%char ::.) <$> (banner f :: mm_comments f)) ++ [sizeLine f] ++ ls)) as ->.
    { rewrite render_lines. unfold ls. rewrite !lines_app. rewrite <- !app_assoc. reflexivity. }
    apply feed_lines. apply Forall_app. split; [apply comments_plain, Hc|]. apply Forall_app. split; [apply Forall_cons; split; [apply size_plain, Hs|constructor]|].
    apply Forall_app. split; [apply Forall_fmap; eapply Forall_impl; [exact Hfits|]; intros e; apply fits_plain|].
    apply Forall_cons. split; [|constructor]. split; [apply not_elem_of_nil|]. split; [apply not_elem_of_nil|cbn [length]; lia]. }
  destruct (head_ok fuel (banner f :: mm_comments f) (mm_rows f) (mm_cols f) (length (mm_entries f)) ls _ _ (isGen f) Hfeed) as (line & t' & fe & Eh & Es & Hf' & Ee).
  { rewrite <- list_fmap_compose. unfold compose. cbn [fst]. rewrite list_fmap_id. reflexivity. }
  { cbn [length]. lia. }
  { reflexivity. }
  1,2,3: lia.
  unfold csrOfFile. rewrite Eh, bind_Ok. cbn beta iota. rewrite Es, bind_Ok. cbn [lookup list_lookup]. unfold storedInt. cbn [used bind Nat.eqb].
  assert (asSize (Z.of_nat (length (mm_entries f))) = Ok (length (mm_entries f))) as -> by apply asIndex_nat. rewrite bind_Ok.
  assert (G : forall es fe fuel t acc arr, Forall (fits (mm_field f)) es -> fst <$> fe = (entryLine (mm_field f) <$> es) ++ [[]] -> feed t fe -> length fe < fuel ->
    cooLoop atof one fuel t acc arr = Err OutOfBounds).
  { clear -Ha. induction es as [|e es IH]; intros fe fuel t acc arr Hfits Ee Hfe Hfu; (destruct fe as [|[l en] fe]; [discriminate|]);
      rewrite fmap_cons in Ee; cbn [fst] in Ee; (destruct fuel as [|fuel]; [cbn [length] in Hfu; lia|]); apply feed_fgets in Hfe as (t' & E1 & E2 & E3 & _ & Hf' & _);
      cbn [cooLoop]; rewrite E1, E2.
    - cbn [fmap list_fmap app] in Ee. injection Ee as -> _. destruct E3 as [-> | ->]; reflexivity.
    - rewrite fmap_cons in Ee. cbn [app] in Ee. injection Ee as -> Ee. apply Forall_cons_1 in Hfits as [He Hfits]. rewrite (parseEntry_ok atof num one (mm_field f) Ha e en He E3), bind_Ok.
      unfold set_. destruct (acc <? length arr); [|reflexivity]. cbn [bind]. cbn [length] in Hfu. apply (IH fe); [exact Hfits|exact Ee|exact Hf'|lia]. }
  rewrite (G (mm_entries f) fe (length t' + 1) t' 0 _ Hfits Ee Hf'); [reflexivity|]. pose proof (feed_length t' fe Hf'). lia.
Qed.
Print Assumptions C69_blank_refuted.

(** A file of comments only: the loop over the comments never ends. *)
Theorem C69_comments_only_refuted :
  forall V (atof : text -> V) zero one szI szV cs fuel, cs <> [] -> Forall (fun c => nlc ∉ c /\ nul ∉ c /\ length c <= 253) cs ->
  csrOfFile atof zero one szI szV fuel (Some (lines ((fun c => "%"%char :: c) <$> cs))) = Err OutOfFuel.
Proof.
  intros V atof zero one szI szV cs fuel Hne Hcs. unfold csrOfFile.
  assert (G : forall fuel t fs line gen, feed t fs -> Forall (fun c => exists l, fst c = "%"%char :: l) fs -> (fs = [] -> exists l, line = Some ("%"%char :: l)) ->
    headLoop fuel line gen t = Err OutOfFuel).
  { clear. induction fuel as [|fuel IH]; intros t fs line gen Hfe Hall Hnil; [reflexivity|]. cbn [headLoop]. destruct fs as [|[l e] fs].
    - rewrite (feed_none t Hfe). destruct (Hnil eq_refl) as (l & ->). cbn [used bind Ascii.eqb Bool.eqb]. apply (IH t []); [exact Hfe|exact Hall|]. intros _. eauto.
    - apply feed_fgets in Hfe as (t' & E1 & E2 & E3 & _ & Hf' & _). rewrite E1, E2. cbn [used bind]. apply Forall_cons_1 in Hall as [(l' & Hl) Hall]. cbn [fst] in Hl.
      rewrite Hl. cbn [app Ascii.eqb Bool.eqb]. apply (IH t' fs); [exact Hf'|exact Hall|]. intros _. eauto. }
  rewrite (G fuel _ ((fun l => (l, [nlc])) <$> ((fun c => "%"%char :: c) <$> cs)) None false); [reflexivity| | |].
  - apply feed_lines, Forall_fmap. eapply Forall_impl; [exact Hcs|]. intros c (H1 & H2 & H3). apply pct_plain; assumption.
  - apply Forall_fmap, Forall_fmap, Forall_forall. intros c _. exists c. reflexivity.
  - destruct cs; [congruence|discriminate].
Qed.
Print Assumptions C69_comments_only_refuted.

(** An index type of more than 32 bits: the sizes are read into half of their variables. *)
Theorem C69_wide_refuted :
  forall V (atof : text -> V) zero one szI szV f t fuel, 4 < szI -> body_wf f -> comments_wf f -> whole_text f t -> length (mm_comments f) + 1 < fuel ->
  csrOfFile atof zero one szI szV fuel (Some t) = Err Uninit.
Proof.
  intros V atof zero one szI szV f t fuel Hw Hb Hc Ht Hfu. assert (Hb' := Hb). destruct Hb' as (Hlen & Hm & Hn & Hne & He & Hsym).
  apply Forall_cons_1 in Hlen as [Hs _]. destruct (feed_declares (length (mm_entries f)) f t Hb Hc Hs Ht) as (fs & Hfeed & Hfs).
  destruct (head_ok fuel (banner f :: mm_comments f) (mm_rows f) (mm_cols f) (length (mm_entries f)) (entryLine (mm_field f) <$> mm_entries f) t fs (isGen f) Hfeed Hfs
    ltac:(cbn [length]; lia) eq_refl) as (line & t' & fe & Eh & Es & Hf' & Ee); [lia..|].
  unfold csrOfFile. rewrite Eh, bind_Ok. cbn beta iota. rewrite Es, bind_Ok. cbn [lookup list_lookup]. unfold storedInt. cbn [used bind].
  destruct (Nat.eqb_spec szI 4); [lia|]. destruct (Nat.ltb_spec 4 szI); [reflexivity|lia].
Qed.
Print Assumptions C69_wide_refuted.

(** A comment of 255 characters or more (with the percent sign): what is behind them is taken for the size line. *)
Theorem C69_long_comment_refuted :
  forall V (atof : text -> V) zero one szI szV a x t fuel, length a = 254 -> nlc ∉ a -> x <> "%"%char -> isDigit x = false -> isSpace x = false ->
  x <> "-"%char -> x <> "+"%char -> 2 <= fuel ->
  csrOfFile atof zero one szI szV fuel (Some ("%"%char :: a ++ x :: t)) = Err Uninit.
Proof.
  intros V atof zero one szI szV a x t fuel Ha Hn Hx Hd Hsp Hm Hp Hfu. unfold csrOfFile. destruct fuel as [|[|fuel]]; [lia|lia|].
  assert (E : fgets ("%"%char :: a ++ x :: t) = Some ("%"%char :: a, x :: t)).
  { unfold fgets. assert (G : forall a k, nlc ∉ a -> length a = k -> fgetsLoop k (a ++ x :: t) = (a, x :: t)).
    { clear. induction a as [|c a IH]; intros k Hn Hl; cbn [length] in Hl; subst k; [reflexivity|]. apply not_elem_of_cons in Hn as [Hc Hn]. cbn [app fgetsLoop].
      destruct (Ascii.eqb_spec c "010") as [->|_]; [destruct Hc; reflexivity|]. rewrite (IH _ Hn eq_refl). reflexivity. }
    f_equal. apply (G ("%"%char :: a) 255); [apply not_elem_of_cons; split; [discriminate|exact Hn]|cbn [length]; lia]. }
  cbn [headLoop]. rewrite E. cbn [cstr Ascii.eqb Bool.eqb used bind].
  destruct (fgets (x :: t)) as [[l r]|] eqn:E2; [|discriminate]. change (Some (fgetsLoop (S 254) (x :: t)) = Some (l, r)) in E2.
  rewrite fgetsLoop_S in E2.
  destruct (Ascii.eqb_spec x "010") as [->|_]; [discriminate Hsp|]. destruct (fgetsLoop 254 t) as [l' r'] eqn:E3. injection E2 as <- <-. cbn [used bind].
  assert (G : match cstr (x :: l') with
     | [] => Ok (cstr (x :: l'), (false || strstr (list_ascii_of_string "general") ("%"%char :: cstr a)) || strstr (list_ascii_of_string "general") (cstr (x :: l')), r')
     | c :: _ => if Ascii.eqb c "%" then headLoop fuel (Some (cstr (x :: l'))) ((false || strstr (list_ascii_of_string "general") ("%"%char :: cstr a)) || strstr (list_ascii_of_string "general") (cstr (x :: l'))) r'
       else Ok (cstr (x :: l'), (false || strstr (list_ascii_of_string "general") ("%"%char :: cstr a)) || strstr (list_ascii_of_string "general") (cstr (x :: l')), r')
     end = Ok (cstr (x :: l'), (false || strstr (list_ascii_of_string "general") ("%"%char :: cstr a)) || strstr (list_ascii_of_string "general") (cstr (x :: l')), r')).
  { cbn [cstr]. destruct (Ascii.eqb x "000"); [reflexivity|]. destruct (Ascii.eqb_spec x "%"); [congruence|reflexivity]. }
  rewrite G. cbn [bind].
  assert (scanInts 3 (cstr (x :: l')) = Ok []) as ->; [|reflexivity].
  cbn [cstr]. destruct (Ascii.eqb x "000"); [reflexivity|]. cbn [scanInts]. rewrite skipSpace_no by exact Hsp.
  destruct (Ascii.eqb_spec x "-"); [congruence|]. destruct (Ascii.eqb_spec x "+"); [congruence|]. rewrite (digit_None x Hd). reflexivity.
Qed.
Print Assumptions C69_long_comment_refuted.
Example C69_long_comment_example : let a := replicate 254 "-"%char in
  length a = 254 /\ nlc ∉ a /\ isDigit "x" = false /\ isSpace "x" = false.
Proof. split; [reflexivity|]. split; [|split; reflexivity]. intros H. apply elem_of_replicate in H as [H _]. discriminate. Qed.

(** Two spaces between row and column: the column is taken for the value. *)
Theorem C69_spaces_refuted :
  forall V (atof : text -> V) one r c (v : text), (Z.of_nat r <= intmax)%Z -> (Z.of_nat c <= intmax)%Z -> noDigit v ->
  parseEntry atof one (showNat r ++ txt "  " ++ showNat c ++ v) = Ok ((Z.of_nat r - 1)%Z, (Z.of_nat c - 1)%Z, atof (showNat c ++ v)).
Proof.
  intros V atof one r c v Hr Hc Hv. unfold parseEntry. change (txt "  " ++ showNat c ++ v) with (" "%char :: " "%char :: showNat c ++ v).
  rewrite atoi_nat by (assumption || reflexivity). cbn [bind]. rewrite strchr_app by (apply digits_notin; [apply showNat_digits|reflexivity]).
  assert (atoi (" "%char :: showNat c ++ v) = atoi (showNat c ++ v)) as -> by reflexivity.
  rewrite (atoi_nat c v Hc Hv). reflexivity.
Qed.
Print Assumptions C69_spaces_refuted.

(** Rows are in the order of the file, so they need not be sorted. *)
Theorem C69_unsorted_refuted :
  exists f X, body_wf f /\ comments_wf f /\ comments_quiet f /\ mm_symm f = SymNo /\
  csrOfFile upToNl [] (txt "1") 4 8 2 (Some (render f)) = Ok X /\ ~ sorted_rows X.
Proof.
  exists (mkMM Pattern SymNo [] 1 2 [(1, 2, 0%Z, []); (1, 1, 0%Z, [])]), (mkCsr 1 2 2 [0; 2] [1; 0] [txt "1"; txt "1"]).
  split; [|split; [|split; [|split; [|split]]]].
  - split; [|split; [|split; [|split; [|split]]]].
    + apply Forall_forall. intros l Hl. apply Nat.leb_le. revert l Hl. rewrite <- Forall_forall.
      cbn [mm_entries mm_field fmap list_fmap]. repeat (apply Forall_cons; split; [vm_compute; reflexivity|]). apply Forall_nil; exact I.
    + vm_compute. discriminate.
    + vm_compute. discriminate.
    + vm_compute. discriminate.
    + cbn [mm_entries mm_rows mm_cols mm_field]. repeat (apply Forall_cons; split; [split; [lia|split; [lia|left; reflexivity]]|]). apply Forall_nil; exact I.
    + left. reflexivity.
  - apply Forall_nil; exact I.
  - left. reflexivity.
  - reflexivity.
  - vm_compute. reflexivity.
  - intros H. specialize (H 0 ltac:(cbn; lia)). vm_compute in H. apply StronglySorted_inv in H as [_ H]. apply Forall_cons_1 in H as [H _]. lia.
Qed.
Print Assumptions C69_unsorted_refuted.

(** The bound on the loop over the comments is no restriction: a run that does not end within as many steps as there are characters never ends. *)
Theorem C69_fuel :
  forall V (atof : text -> V) zero one szI szV t fuel, length t + 1 < fuel ->
  csrOfFile atof zero one szI szV fuel (Some t) = Err OutOfFuel ->
  forall fuel', csrOfFile atof zero one szI szV fuel' (Some t) = Err OutOfFuel.
Proof.
  intros V atof zero one szI szV t fuel Hfu E fuel'.
  assert (Hshort : forall k t, length (snd (fgetsLoop k t)) <= length t).
  { clear. induction k as [|k IH]; intros [|c t]; cbn [fgetsLoop snd]; try lia. destruct (Ascii.eqb c "010"); cbn [snd length]; [lia|].
    specialize (IH t). destruct (fgetsLoop k t). cbn [snd] in *. lia. }
  assert (Hfg : forall t l r, fgets t = Some (l, r) -> length r < length t).
  { intros [|c u] l r Hf; [discriminate|]. change (Some (fgetsLoop (S 254) (c :: u)) = Some (l, r)) in Hf. rewrite fgetsLoop_S in Hf.
    destruct (Ascii.eqb c "010"); [injection Hf as <- <-; cbn [length]; lia|]. pose proof (Hshort 254 u). destruct (fgetsLoop 254 u) as [a b]. injection Hf as <- <-. cbn [snd] in H. cbn [length]. lia. }
  unfold csrOfFile in *.
  assert (Hhead : forall t fuel line gen, length t + 1 < fuel -> headLoop fuel line gen t = Err OutOfFuel -> forall fuel', headLoop fuel' line gen t = Err OutOfFuel).
  { clear -Hfg. intros t. revert t.
    assert (Hend : forall fuel' l gen, headLoop fuel' (Some ("%"%char :: l)) gen [] = Err OutOfFuel).
    { induction fuel' as [|fuel' IH]; intros l gen; [reflexivity|]. cbn [headLoop fgets used bind Ascii.eqb Bool.eqb]. apply IH. }
    assert (G : forall n t fuel line gen, length t <= n -> length t + 1 < fuel -> headLoop fuel line gen t = Err OutOfFuel -> forall fuel', headLoop fuel' line gen t = Err OutOfFuel).
    { induction n as [|n IH]; intros t fuel line gen Hn Hfu E fuel'; (destruct fuel as [|fuel]; [lia|]); (destruct fuel' as [|fuel']; [reflexivity|]); cbn [headLoop] in E |- *;
        destruct (fgets t) as [[l r]|] eqn:Ef.
      - apply Hfg in Ef. lia.
      - destruct line as [l|]; cbn [used bind] in E |- *; [|discriminate]. destruct l as [|c l]; [discriminate|]. destruct (Ascii.eqb_spec c "%") as [->|_]; [|discriminate].
        destruct t; [apply Hend|discriminate].
      - cbn [used bind] in E |- *. destruct (cstr l) as [|c l']; [discriminate|]. destruct (Ascii.eqb c "%"); [|discriminate]. apply Hfg in Ef.
        eapply IH; [| |exact E]; lia.
      - destruct line as [l|]; cbn [used bind] in E |- *; [|discriminate]. destruct l as [|c l]; [discriminate|]. destruct (Ascii.eqb_spec c "%") as [->|_]; [|discriminate].
        destruct t; [apply Hend|discriminate]. }
    intros t fuel line gen. apply (G (length t)). lia. }
  destruct (headLoop fuel None false t) as [[[line gen] t1]|e] eqn:Eh.
  2:{ cbn [bind] in E. injection E as ->. rewrite (Hhead t fuel None false Hfu Eh fuel'). reflexivity. }
  exfalso. cbn [bind] in E.
  assert (Hscan : forall k l, scanInts k l <> Err OutOfFuel).
  { clear. induction k as [|k IH]; intros l; [discriminate|]. cbn [scanInts]. destruct (match skipSpace l with [] => _ | _ => _ end) as [ng ds]. destruct ds as [|d ds]; [discriminate|].
    destruct (digit d); [|discriminate]. destruct (digits 0 (d :: ds)) as [q r]. destruct (_ && _); [|discriminate]. specialize (IH r). destruct (scanInts k r); [discriminate|].
    cbn [bind]. congruence. }
  assert (Hcoo : forall fuel t num (coo : list (option (Z * Z * V))), length t < fuel -> cooLoop atof one fuel t num coo <> Err OutOfFuel).
  { clear -Hfg. induction fuel as [|fuel IH]; intros t num coo Hfu; [lia|]. cbn [cooLoop]. destruct (fgets t) as [[l r]|] eqn:Ef; [|discriminate]. apply Hfg in Ef.
    unfold parseEntry. pose proof (atoi_fuel (cstr l)) as H1. destruct (atoi (cstr l)); cbn [bind]; [|congruence]. destruct (strchr (cstr l)) as [[|? ch]|]; [discriminate| |discriminate].
    pose proof (atoi_fuel ch) as H2. destruct (atoi ch); cbn [bind]; [|congruence].
    destruct (strchr ch) as [[|? ?]|]; cbn [bind]; unfold set_; (destruct (num <? length coo); [|discriminate]); cbn [bind]; apply IH; lia. }
  assert (Hst : forall z, storedInt szI z <> Err OutOfFuel).
  { intros [z|]; unfold storedInt; cbn [used bind]; [|discriminate]. destruct (szI =? 4); [discriminate|]. destruct (4 <? szI); discriminate. }
  assert (Hsz : forall z, asSize z <> Err OutOfFuel) by (intros z; unfold asSize; destruct (0 <=? z)%Z; discriminate).
  assert (Hix : forall z, asIndex z <> Err OutOfFuel) by (intros z; unfold asIndex; destruct (0 <=? z)%Z; discriminate).
  assert (Hget : forall A (l : list A) i, get l i <> Err OutOfFuel) by (intros A l i; unfold get; destruct (l !! i); discriminate).
  assert (Hset : forall A (l : list A) i x, set_ l i x <> Err OutOfFuel) by (intros A l i x; unfold set_; destruct (i <? length l); discriminate).
  assert (HgetI : forall A (l : list (option A)) i, getI l i <> Err OutOfFuel) by (intros A l i; unfold getI; destruct (l !! i) as [[]|]; discriminate).
  assert (Hbind : forall A B (m : res A) (k : A -> res B), m <> Err OutOfFuel -> (forall a, k a <> Err OutOfFuel) -> bind m k <> Err OutOfFuel).
  { intros A B [a|e] k H1 H2; cbn [bind]; [apply H2|congruence]. }
  assert (Hfor : forall S (body : nat -> S -> res S) lo hi s, (forall i s, body i s <> Err OutOfFuel) -> for_ lo hi body s <> Err OutOfFuel).
  { intros S body lo hi s Hb. unfold for_. generalize (hi - lo). intros n. revert lo s. induction n as [|n IH]; intros lo s; [discriminate|]. cbn [for_n]. apply Hbind; [apply Hb|]. intros; apply IH. }
  assert (Hbump : forall w k, bump w k <> Err OutOfFuel) by (intros w k; unfold bump; apply Hbind; [apply Hget|intros; apply Hset]).
  assert (Hpl : forall rp r c (v : V) s, placeAt rp r c v s <> Err OutOfFuel).
  { intros rp r c v [[each ids] vals]. unfold placeAt. repeat (apply Hbind; [first [apply Hget|apply Hset]|intros]). discriminate. }
  revert E. apply Hbind; [apply Hscan|]. intros zs. apply Hbind; [apply Hst|]. intros nz. apply Hbind; [apply Hsz|]. intros nz'.
  apply Hbind; [apply Hcoo; lia|]. intros [num coo]. apply Hbind; [apply Hst|]. intros mm. apply Hbind; [apply Hsz|]. intros mm'. apply Hbind.
  { apply Hfor. intros i [w q]. apply Hbind; [apply HgetI|]. intros [[r c] v]. unfold countEntry. apply Hbind; [apply Hix|]. intros ri. apply Hbind; [apply Hbump|]. intros w'.
    destruct (negb (Z.eqb c r) && negb gen); [|discriminate]. apply Hbind; [apply Hix|]. intros. apply Hbind; [apply Hbump|]. intros. destruct (_ <=? _)%Z; discriminate. }
  intros [work nz2]. apply Hbind; [destruct (_ <=? _)%Z; discriminate|]. intros _. apply Hbind.
  { unfold rowPointers. apply Hbind; [|intros [rp off]; apply Hset]. apply Hfor. intros i [rp off]. apply Hbind; [apply Hset|]. intros. apply Hbind; [apply Hget|]. discriminate. }
  intros rp. apply Hbind.
  { apply Hfor. intros i s. apply Hbind; [apply HgetI|]. intros [[r c] v]. unfold fillEntry. apply Hbind; [apply Hix|]. intros. apply Hbind; [apply Hix|]. intros.
    apply Hbind; [apply Hpl|]. intros. destruct (negb (Z.eqb c r) && negb gen); [apply Hpl|discriminate]. }
  intros [[each ids] vals]. apply Hbind; [apply Hst|]. intros. apply Hbind; [apply Hsz|]. discriminate.
Qed.
Print Assumptions C69_fuel.
Example C69_fuel_example : csrOfFile upToNl [] (txt "1") 4 8 6 (Some (txt "% a
")) = Err OutOfFuel /\ csrOfFile upToNl [] (txt "1") 4 8 16 (Some (txt "% a
1 1 0
")) = Ok (mkCsr 1 1 0 [0; 0] [] []).
Proof. split; vm_compute; reflexivity. Qed.

(** A file that cannot be opened ends the program (555-558). *)
Theorem C69_missing : forall V (atof : text -> V) zero one szI szV fuel, csrOfFile atof zero one szI szV fuel None = Err AssertFail.
Proof. reflexivity. Qed.
Print Assumptions C69_missing.
