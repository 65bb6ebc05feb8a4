(** The two files of GenMatrices: what the loops write, the length of numerals, and the splitting of the name. *)
From Verif Require Import BaseProofs MatSpec GenModel.
From Coq Require Import DecimalNat DecimalFacts.
From Verif Require Import Base Spec.
Local Open Scope list_scope.

(** The Matrix Market file without values for the positions [P] (counted from 0). *)
Definition patternFile (m n : nat) (P : list (nat * nat)) : mmfile :=
  mkMM Pattern SymNo [] m n ((fun p => (fst p + 1, snd p + 1, 1%Z, [])) <$> P).

(** ** Numerals *)
Lemma acc_ge d : forall acc, acc * 10 ^ Decimal.nb_digits d <= Nat.of_uint_acc d acc.
Proof.
  induction d as [|d IH|d IH|d IH|d IH|d IH|d IH|d IH|d IH|d IH|d IH]; intros acc; cbn [Decimal.nb_digits Nat.of_uint_acc]; [simpl; lia|..];
    rewrite Nat.tail_mul_spec || idtac; rewrite Nat.pow_succ_r'; (etransitivity; [|apply IH]); rewrite ?Nat.tail_mul_spec; nia.
Qed.
Lemma showNat_len n : length (showNat n) = 1 \/ 10 ^ (length (showNat n) - 1) <= n.
Proof.
  unfold showNat. assert (E : Decimal.unorm (Nat.to_uint n) = Nat.to_uint n).
  { rewrite <- DecimalNat.Unsigned.to_of, DecimalNat.Unsigned.of_to. reflexivity. }
  assert (L : forall d, length (txt (NilEmpty.string_of_uint d)) = Decimal.nb_digits d).
  { induction d; cbn [NilEmpty.string_of_uint Decimal.nb_digits]; unfold txt in *; cbn [list_ascii_of_string length]; congruence. }
  pose proof (DecimalNat.Unsigned.of_to n) as Hn. revert E Hn. generalize (Nat.to_uint n). intros d E Hn.
  unfold Decimal.unorm in E. assert (Hz : forall x, Decimal.nzhead d <> Decimal.D0 x).
  { clear. induction d; cbn; intros x; try discriminate; auto. }
  destruct (Decimal.nzhead d) as [|x|x|x|x|x|x|x|x|x|x] eqn:Eh; [left; subst d; reflexivity|destruct (Hz x eq_refl)|..];
    right; subst d; cbn [NilZero.string_of_uint]; rewrite L; cbn [Decimal.nb_digits]; rewrite Nat.sub_succ, Nat.sub_0_r;
    rewrite <- Hn; unfold Nat.of_uint; cbn [Nat.of_uint_acc]; (etransitivity; [|apply acc_ge]); cbn; lia.
Qed.
Lemma showNat_short n : (Z.of_nat n <= intmax)%Z -> length (showNat n) <= 10.
Proof.
  intros H. destruct (showNat_len n) as [->|G]; [lia|]. destruct (Nat.le_gt_cases (length (showNat n)) 10) as [|Hl]; [assumption|exfalso].
  apply Nat2Z.inj_le in G. rewrite Nat2Z.inj_pow in G. pose proof (Z.pow_le_mono_r (Z.of_nat 10) 10 (Z.of_nat (length (showNat n) - 1)) ltac:(lia) ltac:(lia)) as G'.
  assert ((intmax < Z.of_nat 10 ^ 10)%Z) by reflexivity. lia.
Qed.
Lemma patternFile_wf m n P : (Z.of_nat m <= intmax)%Z -> (Z.of_nat n <= intmax)%Z -> (2 * Z.of_nat (length P) <= intmax)%Z ->
  Forall (fun p => fst p < m /\ snd p < n) P -> mm_wf (patternFile m n P).
Proof.
  intros Hm Hn HP HF. unfold mm_wf, patternFile. cbn [mm_comments mm_rows mm_cols mm_entries mm_field mm_symm]. split; [constructor|]. split.
  - constructor.
    + unfold sizeLine. cbn [mm_rows mm_cols mm_entries]. rewrite fmap_length, !app_length. cbn [length txt list_ascii_of_string].
      pose proof (showNat_short m Hm). pose proof (showNat_short n Hn). pose proof (showNat_short (length P) ltac:(lia)). lia.
    + apply Forall_fmap, Forall_fmap. eapply Forall_impl; [exact HF|]. intros [r c] (Hr & Hc). cbn [fst snd] in Hr, Hc. cbn. rewrite app_nil_r, !app_length. cbn [length].
      pose proof (showNat_short (r + 1) ltac:(lia)). pose proof (showNat_short (c + 1) ltac:(lia)). lia.
  - rewrite fmap_length. split; [exact Hm|]. split; [exact Hn|]. split; [exact HP|]. apply Forall_fmap. eapply Forall_impl; [exact HF|].
    intros [r c] (Hr & Hc). cbn [fst snd compose] in *. split; [lia|]. split; [lia|]. split; [vm_compute; congruence|]. left. reflexivity.
Qed.
Lemma patternFile_means m n P : means (patternFile m n P) = (fun p => (p, 1%Z)) <$> P.
Proof.
  unfold means, patternFile. cbn [mm_entries]. rewrite <- list_fmap_compose.
  generalize ((fun p : nat * nat => (fst p + 1, snd p + 1, 1%Z, @nil ascii)) <$> P) at 1. intros Q.
  induction P as [|[r c] P IH]; [reflexivity|]. rewrite !fmap_cons, mjoin_cons, IH. cbn. rewrite !Nat.add_sub. reflexivity.
Qed.

(** ** The loops *)
Section Loops.
Context {V : Type}.
Lemma join_app {A} (a b : list (list A)) : mjoin (a ++ b) = mjoin a ++ mjoin b.
Proof. induction a as [|x a IH]; [reflexivity|]. change ((x :: a) ++ b) with (x :: (a ++ b)). rewrite !mjoin_cons, IH. apply app_assoc. Qed.
Lemma mono_le (T : csr V) : wf T -> forall i k a b, rowptr T !! i = Some a -> rowptr T !! (i + k) = Some b -> a <= b.
Proof.
  intros Hw i k. induction k as [|k IH]; intros a b Ha Hb; [rewrite Nat.add_0_r in Hb; assert (a = b) by congruence; lia|].
  destruct (lookup_lt_is_Some_2 (rowptr T) (i + k)) as [c Hc]; [apply lookup_lt_Some in Hb; lia|].
  specialize (IH a c Ha Hc). pose proof (wf_mono _ Hw (i + k) c b Hc). replace (i + S k) with (i + k + 1) in Hb by lia. specialize (H Hb). lia.
Qed.
Lemma row_write (T : csr V) (g : nat -> text) i s : wf T -> i < rows T ->
  (lo <- get (rowptr T) i ;; hi <- get (rowptr T) (i + 1) ;;
   for_ lo hi (fun j s => c <- get (colids T) j ;; Ok (s ++ g c)) s) = Ok (s ++ mjoin ((fun e => g (fst e)) <$> row_entries T i)).
Proof.
  intros Hw Hi. pose proof (wf_len _ Hw) as HL.
  destruct (lookup_lt_is_Some_2 (rowptr T) i) as [lo Hlo]; [lia|]. destruct (lookup_lt_is_Some_2 (rowptr T) (i + 1)) as [hi Hhi]; [lia|].
  unfold get at 1. rewrite Hlo. cbn [bind]. unfold get at 1. rewrite Hhi. cbn [bind].
  pose proof (wf_mono _ Hw _ _ _ Hlo Hhi) as Hle.
  assert (Hn : hi <= nnz T). { refine (mono_le T Hw (i + 1) (rows T - (i + 1)) hi (nnz T) Hhi _). replace (i + 1 + (rows T - (i + 1))) with (rows T) by lia. apply (wf_last _ Hw). }
  rewrite (for_foldM (zip (colids T) (values T)) _ (fun s e => Ok (s ++ g (fst e)))).
  - unfold row_entries. rewrite Hlo, Hhi. generalize (take (hi - lo) (drop lo (zip (colids T) (values T)))). intros l. revert s. induction l as [|e l IH]; intros s; cbn [foldM].
    + change (mjoin _) with (@nil ascii). rewrite app_nil_r. reflexivity.
    + rewrite bind_Ok, IH, fmap_cons, mjoin_cons, app_assoc. reflexivity.
  - rewrite zip_with_length, (wf_colids _ Hw), (wf_values _ Hw). lia.
  - exact Hle.
  - intros k e s' Hk He. unfold get. apply lookup_zip_with_Some in He as (c & v & -> & Hc & _). rewrite Hc. reflexivity.
Qed.
Lemma rows_write (T : csr V) (g : nat -> nat -> text) s n : wf T -> n <= rows T ->
  for_ 0 n (fun i s => lo <- get (rowptr T) i ;; hi <- get (rowptr T) (i + 1) ;;
    for_ lo hi (fun j s => c <- get (colids T) j ;; Ok (s ++ g i c)) s) s =
  Ok (s ++ mjoin ((fun t => g (fst (fst t)) (snd (fst t))) <$> mjoin ((fun i => (fun e => (i, fst e, snd e)) <$> row_entries T i) <$> seq 0 n))).
Proof.
  intros Hw Hn.
  destruct (for_inv (fun i x => x = s ++ mjoin ((fun t : nat * nat * V => g (fst (fst t)) (snd (fst t))) <$> mjoin ((fun i => (fun e => (i, fst e, snd e)) <$> row_entries T i) <$> seq 0 i)))
    (fun i s => lo <- get (rowptr T) i ;; hi <- get (rowptr T) (i + 1) ;; for_ lo hi (fun j s => c <- get (colids T) j ;; Ok (s ++ g i c)) s) 0 n s) as (x & Hx & ->); [lia|..|exact Hx].
  - change (mjoin _) with (@nil ascii). rewrite app_nil_r. reflexivity.
  - intros i x Hi ->. eexists. split; [apply (row_write T (g i)); [exact Hw|lia]|].
    rewrite Nat.add_1_r, seq_S, fmap_app, join_app, fmap_app, join_app, app_assoc. f_equal. cbn [fmap list_fmap]. rewrite mjoin_cons. change (mjoin []) with (@nil (nat * nat * V)).
    rewrite app_nil_r, <- list_fmap_compose. reflexivity.
Qed.

(** The lines of a list of positions. *)
Definition posLines (P : list (nat * nat)) : text := lines ((fun p => showNat (fst p + 1) ++ txt " " ++ showNat (snd p + 1)) <$> P).
Lemma render_pattern m n P : render (patternFile m n P) = head2 m n (length P) ++ posLines P.
Proof.
  unfold render, patternFile, posLines, head2, sizeLine, banner. cbn [mm_entries mm_field mm_comments mm_rows mm_cols mm_symm]. rewrite fmap_length.
  unfold lines at 1 2. cbn [fmap list_fmap mjoin list_join app]. rewrite !app_nil_r. rewrite <- list_fmap_compose.
  assert (E : forall x : text, (entryLine Pattern ∘ (fun p : nat * nat => (fst p + 1, snd p + 1, 1%Z, []))) <$> P = (fun p => showNat (fst p + 1) ++ txt " " ++ showNat (snd p + 1)) <$> P).
  { intros _. apply list_fmap_ext. intros i [r c] _. cbn. rewrite app_nil_r. reflexivity. }
  rewrite (E []). cbn. rewrite <- !app_assoc. cbn. rewrite <- !app_assoc. cbn. rewrite <- !app_assoc. reflexivity.
Qed.
Lemma lines_join {A} (g : A -> text) (l : list A) : mjoin ((fun x => g x ++ [nlc]) <$> l) = lines (g <$> l).
Proof. unfold lines. rewrite <- list_fmap_compose. reflexivity. Qed.

Lemma writeRight_ok (T : csr V) : wf T -> writeRight T = Ok (head2 (rows T) (cols T) (nnz T) ++ posLines (fst <$> triples T)).
Proof.
  intros Hw. unfold writeRight. etransitivity; [|apply (f_equal (fun x => x)); refine (eq_trans (rows_write T (fun i c => showNat (i + 1) ++ txt " " ++ showNat (c + 1) ++ [nlc]) (head2 (rows T) (cols T) (nnz T)) (rows T) Hw (le_n _)) _)]; [reflexivity|].
  do 2 f_equal. unfold posLines. rewrite <- lines_join, <- list_fmap_compose. f_equal. unfold triples. apply list_fmap_ext. intros i [[r c] v] _. cbn. rewrite <- !app_assoc. reflexivity.
Qed.
(** The entries of the columns below [n]. *)
Definition upTo (A : csc V) (n : nat) : list (nat * nat * V) := mjoin ((fun j => (fun e => (fst e, j, snd e)) <$> col_entries A j) <$> seq 0 n).
Lemma writeLeft_ok (A : csc V) : wf_csc A -> c_rows A <= c_cols A ->
  writeLeft A = Ok (head2 (c_rows A) (c_cols A) (c_nnz A) ++ posLines (fst <$> upTo A (c_rows A))).
Proof.
  intros Hw Hle. unfold writeLeft.
  refine (eq_trans (rows_write (csc_tr A) (fun i r => showNat (r + 1) ++ txt " " ++ showNat (i + 1) ++ [nlc]) (head2 (c_rows A) (c_cols A) (c_nnz A)) (c_rows A) Hw Hle) _).
  do 2 f_equal. unfold posLines. rewrite <- lines_join, <- list_fmap_compose. unfold upTo, col_entries. generalize (seq 0 (c_rows A)). intros l.
  induction l as [|j l IH]; [reflexivity|]. rewrite !fmap_cons, !mjoin_cons, !fmap_app, !join_app, IH. f_equal. f_equal. rewrite <- !list_fmap_compose.
  apply list_fmap_ext. intros i [r v] _. cbn. rewrite <- !app_assoc. reflexivity.
Qed.
Lemma writeLeft_tall (A : csc V) : wf_csc A -> c_cols A < c_rows A -> writeLeft A = Err OutOfBounds.
Proof.
  intros Hw Hlt. unfold writeLeft. unfold for_ at 1. rewrite Nat.sub_0_r.
  replace (c_rows A) with (c_cols A + S (c_rows A - c_cols A - 1)) at 1 by lia.
  assert (G : forall S (f : nat -> S -> res S) a b lo s, for_n (a + b) lo f s = (x <- for_n a lo f s ;; for_n b (lo + a) f x)).
  { clear. intros S f a b. induction a as [|a IH]; intros lo s; [rewrite Nat.add_0_r; reflexivity|]. cbn [Nat.add for_n]. destruct (f lo s) as [x|]; cbn [bind]; [|reflexivity].
    rewrite IH. replace (Datatypes.S lo + a) with (lo + Datatypes.S a) by lia. reflexivity. }
  rewrite G. pose proof (rows_write (csc_tr A) (fun i r => showNat (r + 1) ++ txt " " ++ showNat (i + 1) ++ [nlc]) (head2 (c_rows A) (c_cols A) (c_nnz A)) (c_cols A) Hw (le_n _)) as E.
  unfold for_ at 1 in E. rewrite Nat.sub_0_r in E. cbn [csc_tr rowptr colids] in E. rewrite E. cbn [bind for_n Nat.add].
  pose proof (wf_len _ Hw) as HL. cbn [csc_tr rowptr rows] in HL. destruct (lookup_lt_is_Some_2 (colptr A) (c_cols A)) as [lo Hlo]; [lia|]. unfold get at 1. rewrite Hlo. cbn [bind].
  unfold get at 1. rewrite lookup_ge_None_2 by lia. reflexivity.
Qed.
End Loops.

(** ** The name *)
Lemma pieces_app d a b : pieces d (a ++ d :: b) = pieces d (a ++ [d]) ++ pieces d b.
Proof.
  induction a as [|c a IH]; cbn [app pieces]; [rewrite Ascii.eqb_refl; reflexivity|]. destruct (Ascii.eqb c d) eqn:E; [rewrite IH; reflexivity|]. rewrite IH.
  destruct (pieces d (a ++ [d])) as [|p ps] eqn:Es; [exfalso|reflexivity]. destruct a as [|x a]; cbn [app pieces] in Es; [rewrite Ascii.eqb_refl in Es; discriminate|].
  destruct (Ascii.eqb x d); [discriminate|]. destruct (pieces d (a ++ [d])); discriminate.
Qed.
Lemma pieces_one d s : s <> [] -> d ∉ s -> pieces d s = [s].
Proof.
  induction s as [|c s IH]; [congruence|]. intros _ Hd. apply not_elem_of_cons in Hd as [Hc Hd]. cbn [pieces]. destruct (Ascii.eqb_spec c d) as [->|_]; [congruence|].
  destruct s as [|x s]; [reflexivity|]. rewrite IH; [reflexivity|discriminate|exact Hd].
Qed.
Lemma pieces_end d s : d ∉ s -> pieces d (s ++ [d]) = [s].
Proof.
  induction s as [|c s IH]; intros Hd; cbn [app pieces]; [rewrite Ascii.eqb_refl; reflexivity|]. apply not_elem_of_cons in Hd as [Hc Hd].
  destruct (Ascii.eqb_spec c d) as [->|_]; [congruence|]. rewrite IH by exact Hd. reflexivity.
Qed.
Lemma last_of (d : ascii) (l : text) : exists u w, l = u ++ w /\ d ∉ w /\ (u = [] \/ exists u', u = u' ++ [d]).
Proof.
  induction l as [|c l (u & w & -> & Hw & Hu)] using rev_ind; [exists [], []; split; [reflexivity|]; split; [apply not_elem_of_nil|left; reflexivity]|].
  destruct (decide (c = d)) as [->|Hc].
  - exists (u ++ w ++ [d]), []. rewrite app_nil_r, <- app_assoc. split; [reflexivity|]. split; [apply not_elem_of_nil|]. right. exists (u ++ w). rewrite <- app_assoc. reflexivity.
  - exists u, (w ++ [c]). rewrite <- app_assoc. split; [reflexivity|]. split; [|exact Hu]. rewrite elem_of_app, elem_of_list_singleton. intros [H|H]; [exact (Hw H)|congruence].
Qed.
Lemma fromEnd_app {A} (l v : list A) k : k <= length v -> 0 < k -> fromEnd (l ++ v) k = fromEnd v k.
Proof.
  intros Hk H0. unfold fromEnd. rewrite app_length. destruct (Nat.leb_spec k (length l + length v)); [|lia]. destruct (Nat.leb_spec k (length v)); [|lia].
  unfold get. rewrite lookup_app_r by lia. replace (length l + length v - k - length l) with (length v - k) by lia. reflexivity.
Qed.
Lemma stem_ok dir s ext : (dir = [] \/ exists d, dir = d ++ ["/"%char]) -> s <> [] -> "."%char ∉ s -> "/"%char ∉ s -> ext <> [] -> "."%char ∉ ext ->
  stem (dir ++ s ++ "."%char :: ext) = Ok s.
Proof.
  intros Hdir Hs Hd Hsl He Hde. unfold stem.
  destruct (last_of "." dir) as (u & w & E & Hw & Hu).
  assert (Hw' : w = [] \/ exists d, w = d ++ ["/"%char]).
  { destruct Hdir as [->|(d & ->)]; [left; destruct u, w; try discriminate; reflexivity|]. destruct w as [|x w _] using rev_ind; [left; reflexivity|]. right. rewrite app_assoc in E.
    apply app_inj_tail in E as [_ <-]. eauto. }
  assert (E1 : exists l, pieces "." (dir ++ s ++ "."%char :: ext) = l ++ [w ++ s; ext]).
  { assert (E2 : pieces "." ((w ++ s) ++ "."%char :: ext) = [w ++ s; ext]).
    { rewrite pieces_app, pieces_end, (pieces_one _ ext He Hde); [reflexivity|]. rewrite elem_of_app. tauto. }
    rewrite E. destruct Hu as [->|(u' & ->)].
    - exists []. cbn [app]. rewrite <- E2, <- app_assoc. reflexivity.
    - exists (pieces "." (u' ++ ["."%char])). rewrite <- !app_assoc. change (["."%char] ++ w ++ s ++ "."%char :: ext) with ("."%char :: (w ++ s ++ "."%char :: ext)). rewrite pieces_app, <- E2, <- !app_assoc. reflexivity. }
  destruct E1 as (l & ->). rewrite fromEnd_app by (cbn; lia). cbn [fromEnd length Nat.leb Nat.sub get lookup list_lookup bind]. change (fromEnd [w ++ s; ext] 2) with (@Ok text (w ++ s)). cbn [bind].
  assert (E3 : exists l, pieces "/" (w ++ s) = l ++ [s]).
  { destruct Hw' as [->|(d & ->)]; [exists []; cbn [app]; apply (pieces_one _ s Hs Hsl)|]. exists (pieces "/" (d ++ ["/"%char])).
    rewrite <- app_assoc. change (["/"%char] ++ s) with ("/"%char :: s). rewrite pieces_app, (pieces_one _ s Hs Hsl). reflexivity. }
  destruct E3 as (l' & ->). rewrite fromEnd_app by (cbn; lia). reflexivity.
Qed.
Lemma stem_nodot name : "."%char ∉ name -> stem name = Err OutOfBounds.
Proof. intros H. unfold stem. destruct name as [|c name]; [reflexivity|]. rewrite (pieces_one "." (c :: name)); [reflexivity|discriminate|exact H]. Qed.
(** A name that starts with a dot and has no other one, such as ./dir/matrix. *)
Lemma stem_dot name : "."%char ∉ name -> stem ("."%char :: name) = Err OutOfBounds.
Proof. intros H. unfold stem. cbn [pieces Ascii.eqb Bool.eqb]. destruct name as [|c name]; [reflexivity|]. rewrite (pieces_one "." (c :: name)); [reflexivity|discriminate|exact H]. Qed.
