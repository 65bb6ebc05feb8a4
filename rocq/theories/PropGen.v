(** C77: the two files that sample/GenMatrices.cpp writes. *)
From Verif Require Import BaseProofs MatSpec MatModel PropMat IoSpec PropIo GtModel GtSpec RmatModel PropRmat GenModel GenProofs.
From Verif Require AllMainProofs AllMainCalls PropReport IoProofs.
From Verif Require Import Base Spec.
Local Open Scope list_scope.

(** The positions, counted from 0, that a file stands for. *)
Definition positions (f : mmfile) : list (nat * nat) := fst <$> means f.
(** A file name with an extension: directories, a name, a point, an extension. *)
Definition plain_name (name : text) : Prop := exists dir s ext, name = dir ++ s ++ "."%char :: ext /\
  (dir = [] \/ exists d, dir = d ++ ["/"%char]) /\ s <> [] /\ "."%char ∉ s /\ "/"%char ∉ s /\ ext <> [] /\ "."%char ∉ ext.
(** The names of the two files. *)
Definition leftName (a2 a3 a4 : text) : text := txt "assets/left_" ++ a2 ++ a3 ++ txt "_" ++ a4 ++ txt ".mtx".
Definition rightName (a2 a3 a4 : text) : text := txt "assets/right_" ++ a2 ++ a3 ++ txt "_" ++ a4 ++ txt ".mtx".
(** The last line of the output. *)
Definition lastLine (a b r : nat) : text :=
  txt "Left matrix has " ++ showNat a ++ txt " nonzeros, right matrix has " ++ showNat b ++ txt " nonzeros, nrows " ++ showNat r ++ [nlc].

Section C77.
Context {V : Type} (dflt : V) (ofInt : Z -> V) (ltV : V -> V -> Prop) (stdsort : list (nat * V) -> list (nat * V)) (Hs : sort_contract ltV stdsort).
Context (imax : Z) (Hi : (intmax <= imax)%Z).
Context (generate : bool -> Z -> Z -> res (csc V * csc V)) (readBin : option text -> res (option (csc V)) -> Prop).
Context (files : text -> option text) (canOpen : text -> bool).
Notation genMain := (genMain dflt ofInt stdsort imax generate readBin files canOpen).
Notation setInputs := (setInputs dflt ofInt stdsort imax generate readBin files).

(** The file [name] holds the text of the well-formed file [f] with integer values or none. *)
Definition holds_file (name : text) (f : mmfile) : Prop := exists t, files name = Some t /\ file_text f t /\
  mm_wf f /\ mm_symm f <> SymSkew /\ values_integral f /\ (mm_symm f = SymYes -> mm_rows f = mm_cols f).

Lemma read_holds name f : holds_file name f -> exists X, (forall r, readASCII ofInt dflt stdsort imax (files name) r <-> r = Ok X) /\ wf_csc X /\
  c_rows X = mm_rows f /\ c_cols X = mm_cols f /\ fst <$> triples_csc X ≡ₚ positions f.
Proof.
  intros (t & -> & Ht & Hwf & Hsk & Hint & Hsq).
  destruct (C53_read_csc_partial V ofInt ltV dflt stdsort Hs imax f t Hi Hwf Hsk Hint Hsq Ht) as (X & HX & HwX & HrX & HcX & HtX & _).
  exists X. repeat (split; [assumption|]). rewrite HtX. unfold positions. rewrite <- list_fmap_compose. reflexivity.
Qed.
Lemma length_tr (A : csc V) : wf_csc A -> length (fst <$> triples_csc A) = c_nnz A.
Proof.
  intros Hw. destruct (C31_conversion V dflt A Hw) as (T & _ & HwT & _ & Hn & HP & _). rewrite fmap_length, <- (Permutation_length HP), <- Hn.
  rewrite <- (fmap_length fst). apply AllMainProofs.triplesV_length, HwT.
Qed.
Lemma upTo_all (A : csc V) : upTo A (c_cols A) = triples_csc A.
Proof. reflexivity. Qed.
Lemma names_differ a2 a3 a4 : leftName a2 a3 a4 <> rightName a2 a3 a4.
Proof. unfold leftName, rightName. cbn. congruence. Qed.
Lemma outName_left a2 a3 a4 : outName "left" a2 a3 a4 = leftName a2 a3 a4.
Proof. reflexivity. Qed.
Lemma outName_right a2 a3 a4 : outName "right" a2 a3 a4 = rightName a2 a3 a4.
Proof. reflexivity. Qed.

(** What main does once the matrices are there. *)
Lemma main_when a0 a1 a2 a3 a4 rest A B : wf_csc B ->
  (forall r, setInputs (a0 :: a1 :: a2 :: a3 :: a4 :: rest) r <-> r = Ok (A, B)) ->
  exists Br, csrOfCsc dflt B = Ok Br /\ wf Br /\ rows Br = c_rows B /\ cols Br = c_cols B /\ nnz Br = c_nnz B /\ triples Br ≡ₚ triples_csc B /\
  forall r, genMain (a0 :: a1 :: a2 :: a3 :: a4 :: rest) r <->
    r = (left <- writeLeft A ;;
         Ok (0%Z, written canOpen (written canOpen files (leftName a2 a3 a4) left) (rightName a2 a3 a4) (head2 (rows Br) (cols Br) (nnz Br) ++ posLines (fst <$> triples Br)),
             lastLine (c_nnz A) (nnz Br) (c_rows A))).
Proof.
  intros HwB HI. destruct (C31_conversion V dflt B HwB) as (Br & EB & HwT & [E1 E2 _] & Hn & HP & _).
  exists Br. split; [exact EB|]. split; [exact HwT|]. split; [exact E1|]. split; [exact E2|]. split; [exact Hn|]. split; [exact HP|].
  intros r. unfold GenModel.genMain. cbn [length Nat.ltb Nat.leb].
  assert (E : ('(A, B) <- Ok (A, B) ;; Br <- csrOfCsc dflt B ;;
     a2 <- arg (a0 :: a1 :: a2 :: a3 :: a4 :: rest) 2 ;; a3 <- arg (a0 :: a1 :: a2 :: a3 :: a4 :: rest) 3 ;; a4 <- arg (a0 :: a1 :: a2 :: a3 :: a4 :: rest) 4 ;;
     left <- writeLeft A ;; right <- writeRight Br ;;
     Ok (0%Z, written canOpen (written canOpen files (outName "left" a2 a3 a4) left) (outName "right" a2 a3 a4) right, report (c_nnz A) (nnz Br) (c_rows A))) =
    (left <- writeLeft A ;;
         Ok (0%Z, written canOpen (written canOpen files (leftName a2 a3 a4) left) (rightName a2 a3 a4) (head2 (rows Br) (cols Br) (nnz Br) ++ posLines (fst <$> triples Br)),
             lastLine (c_nnz A) (nnz Br) (c_rows A)))).
  { rewrite bind_Ok, EB, bind_Ok. unfold arg. cbn [get lookup list_lookup]. rewrite !bind_Ok. rewrite (writeRight_ok Br HwT). destruct (writeLeft A) as [l|e]; reflexivity. }
  split.
  - intros (rI & HrI & ->). apply HI in HrI. subst rI. exact E.
  - intros ->. exists (Ok (A, B)). split; [apply HI; reflexivity|symmetry; exact E].
Qed.
Lemma wide_files a2 a3 a4 L R fs : fs = written canOpen (written canOpen files (leftName a2 a3 a4) L) (rightName a2 a3 a4) R ->
  canOpen (leftName a2 a3 a4) = true -> canOpen (rightName a2 a3 a4) = true ->
  fs (leftName a2 a3 a4) = Some L /\ fs (rightName a2 a3 a4) = Some R /\ (forall x, x <> leftName a2 a3 a4 -> x <> rightName a2 a3 a4 -> fs x = files x).
Proof.
  intros -> HL HR. unfold written, sameText. rewrite HL, HR. pose proof (names_differ a2 a3 a4) as Hn. split; [|split].
  - rewrite bool_decide_eq_false_2 by exact Hn. rewrite bool_decide_eq_true_2 by reflexivity. reflexivity.
  - rewrite bool_decide_eq_true_2 by reflexivity. reflexivity.
  - intros x H1 H2. rewrite !bool_decide_eq_false_2 by assumption. reflexivity.
Qed.
Lemma main_square a0 a1 a2 a3 a4 rest A B : wf_csc A -> wf_csc B -> c_rows A = c_cols A ->
  (forall r, setInputs (a0 :: a1 :: a2 :: a3 :: a4 :: rest) r <-> r = Ok (A, B)) ->
  canOpen (leftName a2 a3 a4) = true -> canOpen (rightName a2 a3 a4) = true ->
  exists fs PL PR, (forall r, genMain (a0 :: a1 :: a2 :: a3 :: a4 :: rest) r <-> r = Ok (0%Z, fs, lastLine (c_nnz A) (c_nnz B) (c_rows A))) /\
    fs (leftName a2 a3 a4) = Some (render (patternFile (c_rows A) (c_cols A) PL)) /\ PL ≡ₚ fst <$> triples_csc A /\
    fs (rightName a2 a3 a4) = Some (render (patternFile (c_rows B) (c_cols B) PR)) /\ PR ≡ₚ fst <$> triples_csc B /\
    forall x, x <> leftName a2 a3 a4 -> x <> rightName a2 a3 a4 -> fs x = files x.
Proof.
  intros HwA HwB Hsq HI HcL HcR. destruct (main_when _ _ _ _ _ _ _ _ HwB HI) as (Br & _ & HwT & E1 & E2 & Hn & HP & HM).
  pose proof (writeLeft_ok A HwA (Nat.eq_le_incl _ _ Hsq)) as EL. rewrite Hsq, upTo_all in EL.
  assert (EL' : writeLeft A = Ok (render (patternFile (c_rows A) (c_cols A) (fst <$> triples_csc A)))) by (rewrite render_pattern, length_tr, Hsq by exact HwA; exact EL).
  assert (ER : head2 (rows Br) (cols Br) (nnz Br) ++ posLines (fst <$> triples Br) = render (patternFile (c_rows B) (c_cols B) (fst <$> triples Br))).
  { rewrite render_pattern, (AllMainProofs.triplesV_length Br HwT), E1, E2. reflexivity. }
  rewrite ER, EL', Hn in HM. rewrite bind_Ok in HM.
  destruct (wide_files a2 a3 a4 (render (patternFile (c_rows A) (c_cols A) (fst <$> triples_csc A))) (render (patternFile (c_rows B) (c_cols B) (fst <$> triples Br))) _ eq_refl HcL HcR) as (F1 & F2 & F3).
  eexists _, _, _. split; [exact HM|]. split; [exact F1|]. split; [reflexivity|]. split; [exact F2|]. split; [rewrite HP; reflexivity|exact F3].
Qed.
Lemma text_inputs a0 mode nA nB rest fA fB : mode <> txt "gen" -> mode <> txt "binary" -> plain_name nA -> holds_file nA fA -> holds_file nB fB ->
  exists A B, (forall r, setInputs (a0 :: mode :: nA :: nB :: rest) r <-> r = Ok (A, B)) /\
    wf_csc A /\ c_rows A = mm_rows fA /\ c_cols A = mm_cols fA /\ fst <$> triples_csc A ≡ₚ positions fA /\
    wf_csc B /\ c_rows B = mm_rows fB /\ c_cols B = mm_cols fB /\ fst <$> triples_csc B ≡ₚ positions fB.
Proof.
  intros Hg Hb (dir & s & ext & -> & N1 & N2 & N3 & N4 & N5 & N6) HA HB. set (nA := dir ++ s ++ "."%char :: ext) in *.
  destruct (read_holds _ _ HA) as (A & RA & A1 & A2 & A3 & A4). destruct (read_holds _ _ HB) as (B & RB & B1 & B2 & B3 & B4).
  exists A, B. split; [|auto 10]. intros r. unfold GenModel.setInputs, arg. cbn [get lookup list_lookup bind]. unfold sameText. rewrite !bool_decide_eq_false_2 by assumption.
  pose proof (stem_ok dir s ext N1 N2 N3 N4 N5 N6) as Hst. fold nA in Hst. split.
  - intros (rA & rB & H1 & H2 & ->). apply RA in H1. apply RB in H2. subst. rewrite !bind_Ok, Hst. reflexivity.
  - intros ->. exists (Ok A), (Ok B). split; [apply RA; reflexivity|]. split; [apply RB; reflexivity|]. rewrite !bind_Ok, Hst. reflexivity.
Qed.

(** With two text files, the left one of a square matrix, the program ends in one way only: it returns 0, and each of the two written
    files is a Matrix Market file without values that stands for exactly the positions of the input, equal ones as often as they occur
    there; no other file is changed, and the counts are printed. *)
Theorem C77_text_partial a0 mode nA nB x rest fA fB : mode <> txt "gen" -> mode <> txt "binary" -> plain_name nA -> holds_file nA fA -> holds_file nB fB ->
  mm_rows fA = mm_cols fA -> canOpen (leftName nA nB x) = true -> canOpen (rightName nA nB x) = true ->
  exists fs PL PR,
    (forall r, genMain (a0 :: mode :: nA :: nB :: x :: rest) r <->
       r = Ok (0%Z, fs, lastLine (length (positions fA)) (length (positions fB)) (mm_rows fA))) /\
    fs (leftName nA nB x) = Some (render (patternFile (mm_rows fA) (mm_cols fA) PL)) /\ PL ≡ₚ positions fA /\
    fs (rightName nA nB x) = Some (render (patternFile (mm_rows fB) (mm_cols fB) PR)) /\ PR ≡ₚ positions fB /\
    forall y, y <> leftName nA nB x -> y <> rightName nA nB x -> fs y = files y.
Proof.
  intros Hg Hb Hn HA HB Hsq HcL HcR. destruct (text_inputs a0 mode nA nB (x :: rest) fA fB Hg Hb Hn HA HB) as (A & B & HI & A1 & A2 & A3 & A4 & B1 & B2 & B3 & B4).
  destruct (main_square a0 mode nA nB x rest A B A1 B1 ltac:(congruence) HI HcL HcR) as (fs & PL & PR & HM & F1 & P1 & F2 & P2 & F3).
  exists fs, PL, PR. rewrite <- (length_tr A A1), <- (length_tr B B1), (Permutation_length A4), (Permutation_length B4), A2 in HM.
  rewrite A2, A3 in F1. rewrite B2, B3 in F2. split; [exact HM|]. split; [exact F1|]. split; [rewrite P1; exact A4|]. split; [exact F2|]. split; [rewrite P2; exact B4|exact F3].
Qed.

(** Reading a written file back gives one well-formed matrix: the positions with the value 1. *)
Theorem C77_read_back m n P : (Z.of_nat m <= intmax)%Z -> (Z.of_nat n <= intmax)%Z -> (2 * Z.of_nat (length P) <= intmax)%Z ->
  Forall (fun p => fst p < m /\ snd p < n) P ->
  exists X, (forall r, readASCII ofInt dflt stdsort imax (Some (render (patternFile m n P))) r <-> r = Ok X) /\ wf_csc X /\ c_rows X = m /\ c_cols X = n /\
    triples_csc X ≡ₚ (fun p => (p, ofInt 1)) <$> P.
Proof.
  intros Hm Hn HP HF.
  destruct (C53_read_csc_partial V ofInt ltV dflt stdsort Hs imax (patternFile m n P) (render (patternFile m n P)) Hi (patternFile_wf m n P Hm Hn HP HF)) as (X & HX & HwX & HrX & HcX & HtX & _).
  - discriminate.
  - unfold values_integral. apply Forall_fmap, Forall_forall. reflexivity.
  - discriminate.
  - left. exists []. rewrite app_nil_r. reflexivity.
  - exists X. repeat (split; [assumption|]). rewrite HtX, patternFile_means, <- list_fmap_compose. reflexivity.
Qed.

(** With fewer than three arguments nothing is written. *)
Theorem C77_usage argv r : length argv < 4 -> genMain argv r <-> r = Ok ((-1)%Z, files, []).
Proof. intros H. unfold GenModel.genMain. rewrite (proj2 (Nat.ltb_lt _ _) H). reflexivity. Qed.

(** ** Findings *)
(** More rows than columns: the loop over the columns runs up to the number of rows and leaves the array of column pointers. *)
Theorem C77_tall_refuted a0 mode nA nB x rest fA fB r : mode <> txt "gen" -> mode <> txt "binary" -> plain_name nA -> holds_file nA fA -> holds_file nB fB ->
  mm_cols fA < mm_rows fA -> genMain (a0 :: mode :: nA :: nB :: x :: rest) r <-> r = Err OutOfBounds.
Proof.
  intros Hg Hb Hn HA HB Hlt. destruct (text_inputs a0 mode nA nB (x :: rest) fA fB Hg Hb Hn HA HB) as (A & B & HI & A1 & A2 & A3 & A4 & B1 & _).
  destruct (main_when _ _ _ _ _ _ _ _ B1 HI) as (Br & _ & _ & _ & _ & _ & _ & HM). rewrite HM, (writeLeft_tall A A1) by lia. reflexivity.
Qed.
(** Fewer rows than columns: the entries of the columns from the number of rows on are missing in the left file, which nevertheless announces all of them. *)
Theorem C77_wide_refuted a0 mode nA nB x rest fA fB : mode <> txt "gen" -> mode <> txt "binary" -> plain_name nA -> holds_file nA fA -> holds_file nB fB ->
  mm_rows fA < mm_cols fA -> canOpen (leftName nA nB x) = true -> canOpen (rightName nA nB x) = true ->
  exists fs line PL,
    (forall r, genMain (a0 :: mode :: nA :: nB :: x :: rest) r <-> r = Ok (0%Z, fs, line)) /\
    fs (leftName nA nB x) = Some (lines (
      [txt "%%MatrixMarket matrix coordinate pattern general";
       showNat (mm_rows fA) ++ txt " " ++ showNat (mm_cols fA) ++ txt " " ++ showNat (length (positions fA))] ++
      ((fun p => showNat (fst p + 1) ++ txt " " ++ showNat (snd p + 1)) <$> PL))) /\
    PL ≡ₚ filter (fun p => snd p < mm_rows fA) (positions fA).
Proof.
  intros Hg Hb Hn HA HB Hlt HcL HcR. destruct (text_inputs a0 mode nA nB (x :: rest) fA fB Hg Hb Hn HA HB) as (A & B & HI & A1 & A2 & A3 & A4 & B1 & _).
  destruct (main_when _ _ _ _ _ _ _ _ B1 HI) as (Br & _ & _ & _ & _ & _ & _ & HM). rewrite (writeLeft_ok A A1) in HM by lia. rewrite bind_Ok in HM.
  eexists _, _, (fst <$> upTo A (c_rows A)). split; [exact HM|]. split.
  - refine (eq_trans (proj1 (wide_files nA nB x _ _ _ eq_refl HcL HcR)) _). f_equal. rewrite <- (Permutation_length A4), (length_tr A A1), <- A2, <- A3. unfold head2, posLines, lines.
    rewrite fmap_app, join_app. f_equal. cbn [fmap list_fmap mjoin list_join]. rewrite app_nil_r, <- !app_assoc. reflexivity.
  - rewrite <- A4, <- A2. clear - A1 A2 A3 Hlt. unfold triples_csc, upTo. replace (c_cols A) with (c_rows A + (c_cols A - c_rows A)) by lia.
    rewrite seq_app, fmap_app, join_app, fmap_app, filter_app. cbn [Nat.add].
    assert (G : forall l, (forall j, j ∈ l -> j < c_rows A) ->
       filter (fun p : nat * nat => snd p < c_rows A) (fst <$> mjoin ((fun j => (fun e : nat * V => (fst e, j, snd e)) <$> col_entries A j) <$> l)) = fst <$> mjoin ((fun j => (fun e : nat * V => (fst e, j, snd e)) <$> col_entries A j) <$> l)).
    { intros l Hl. induction l as [|j l IH]; [reflexivity|]. rewrite fmap_cons, mjoin_cons, fmap_app, filter_app, IH by (intros; apply Hl; right; assumption). f_equal.
      assert (Hj : j < c_rows A) by (apply Hl; left). induction (col_entries A j) as [|e c IHc]; [reflexivity|]. rewrite !fmap_cons, filter_cons, decide_True by exact Hj. rewrite IHc. reflexivity. }
    assert (G' : forall l, (forall j, j ∈ l -> c_rows A <= j) -> filter (fun p : nat * nat => snd p < c_rows A) (fst <$> mjoin ((fun j => (fun e : nat * V => (fst e, j, snd e)) <$> col_entries A j) <$> l)) = []).
    { intros l Hl. induction l as [|j l IH]; [reflexivity|]. rewrite fmap_cons, mjoin_cons, fmap_app, filter_app, IH by (intros; apply Hl; right; assumption). rewrite app_nil_r.
      assert (Hj : c_rows A <= j) by (apply Hl; left). induction (col_entries A j) as [|e c IHc]; [reflexivity|]. rewrite !fmap_cons, filter_cons, decide_False by (cbn; lia). exact IHc. }
    rewrite (G (seq 0 (c_rows A))), G'; [rewrite app_nil_r; reflexivity|intros j Hj; apply elem_of_seq in Hj; lia..].
Qed.
(** A name without a point, or with one only at its beginning (./dir/matrix): the vector of its pieces is read in front of its first element. *)
Theorem C77_name_refuted a0 mode nA nB rest fA fB r : mode <> txt "gen" -> mode <> txt "binary" ->
  ("."%char ∉ nA \/ exists n, nA = "."%char :: n /\ "."%char ∉ n) -> holds_file nA fA -> holds_file nB fB ->
  genMain (a0 :: mode :: nA :: nB :: rest) r <-> r = Err OutOfBounds.
Proof.
  intros Hg Hb Hn HA HB. destruct (read_holds _ _ HA) as (A & RA & _). destruct (read_holds _ _ HB) as (B & RB & _).
  assert (Hst : stem nA = Err OutOfBounds) by (destruct Hn as [Hn|(n & -> & Hn)]; [apply stem_nodot, Hn|apply stem_dot, Hn]).
  assert (HI : forall rI, setInputs (a0 :: mode :: nA :: nB :: rest) rI <-> rI = Err OutOfBounds).
  { intros rI. unfold GenModel.setInputs, arg. cbn [get lookup list_lookup bind]. unfold sameText. rewrite !bool_decide_eq_false_2 by assumption. split.
    - intros (rA & rB & H1 & H2 & ->). apply RA in H1. apply RB in H2. subst. rewrite !bind_Ok, Hst. reflexivity.
    - intros ->. exists (Ok A), (Ok B). split; [apply RA; reflexivity|]. split; [apply RB; reflexivity|]. rewrite !bind_Ok, Hst. reflexivity. }
  unfold GenModel.genMain. cbn [length Nat.ltb Nat.leb]. split.
  - intros (rI & H & ->). apply HI in H. subst rI. reflexivity.
  - intros ->. exists (Err OutOfBounds). split; [apply HI; reflexivity|reflexivity].
Qed.
(** Three arguments pass the test of the number of arguments, but the fourth one is used: no execution ends well. *)
Theorem C77_fourth_refuted a0 a1 a2 a3 r v : genMain [a0; a1; a2; a3] r -> r <> Ok v.
Proof.
  unfold GenModel.genMain. cbn [length Nat.ltb Nat.leb]. intros (rI & _ & ->). destruct rI as [[A B]|e]; [|discriminate]. rewrite bind_Ok.
  destruct (csrOfCsc dflt B) as [Br|]; [|discriminate]. rewrite bind_Ok. cbn. discriminate.
Qed.
(** If the files cannot be opened (there is no directory assets, or the first argument names one), nothing is written, and the program reports and returns the same. *)
Theorem C77_silent_refuted a0 mode nA nB x rest fA fB r : mode <> txt "gen" -> mode <> txt "binary" -> plain_name nA -> holds_file nA fA -> holds_file nB fB ->
  mm_rows fA = mm_cols fA -> canOpen (leftName nA nB x) = false -> canOpen (rightName nA nB x) = false ->
  genMain (a0 :: mode :: nA :: nB :: x :: rest) r <-> r = Ok (0%Z, files, lastLine (length (positions fA)) (length (positions fB)) (mm_rows fA)).
Proof.
  intros Hg Hb Hn HA HB Hsq HcL HcR. destruct (text_inputs a0 mode nA nB (x :: rest) fA fB Hg Hb Hn HA HB) as (A & B & HI & A1 & A2 & A3 & A4 & B1 & B2 & B3 & B4).
  destruct (main_when _ _ _ _ _ _ _ _ B1 HI) as (Br & _ & _ & _ & _ & Hnz & _ & HM). rewrite HM, (writeLeft_ok A A1) by lia. rewrite bind_Ok. unfold written. rewrite HcL, HcR.
  rewrite Hnz, <- (length_tr A A1), <- (length_tr B B1), (Permutation_length A4), (Permutation_length B4), A2. reflexivity.
Qed.
End C77.
Print Assumptions C77_text_partial.
Print Assumptions C77_read_back.
Print Assumptions C77_usage.
Print Assumptions C77_tall_refuted.
Print Assumptions C77_wide_refuted.
Print Assumptions C77_name_refuted.
Print Assumptions C77_fourth_refuted.
Print Assumptions C77_silent_refuted.

(** ** Generated matrices *)
Section Generated.
Context {D V : Type} (fadd fsub fmul fdiv : D -> D -> D) (fltb : D -> D -> bool) (f005 f05 : D).
Context (s1 s3 s4 : nat -> D) (weightAt : nat -> V) (dflt : V) (add : V -> V -> V) (ltV : V -> V -> Prop).
Context (srt : list (nat * nat * V) -> list (nat * nat * V)) (Hsrt : edge_sort ltV srt).
Context (ofInt : Z -> V) (stdsort : list (nat * V) -> list (nat * V)) (imax : Z) (readBin : option text -> res (option (csc V)) -> Prop).
Context (files : text -> option text) (canOpen : text -> bool) (fuel : nat) (junk : nat -> list nat) (junkW : nat -> list V) (p0 : bool -> D * D * D * D).
Notation createInputs := (createInputs fadd fsub fmul fdiv fltb f005 f05 s1 s3 s4 weightAt dflt add srt).
(** The generator with any draws and arithmetic, for the parameters of either kind of graph; memory for the edges holds anything. *)
Definition generator (rmat : bool) (scale edgefactor : Z) : res (csc V * csc V) :=
  let m := 2 ^ Z.to_nat scale * Z.to_nat edgefactor in
  createInputs fuel (junk m) (junkW m) (Z.to_nat scale) (Z.to_nat edgefactor) (p0 rmat).

Lemma pos_nodup (R : csc V) : sorted_cols R -> NoDup (fst <$> triples_csc R).
Proof.
  intros Hc. rewrite PropReport.triples_csc_swap, <- list_fmap_compose.
  replace (fst ∘ PropReport.swap3 <$> triples (csc_tr R)) with ((fun p : nat * nat => (snd p, fst p)) <$> (fst <$> triples (csc_tr R))) by (rewrite <- list_fmap_compose; reflexivity).
  apply NoDup_fmap_2; [intros [a b] [c d] E; cbn in E; congruence|]. apply AllMainProofs.rowsV_NoDup. intros j Hj. apply AllMainCalls.sorted_NoDup, Hc, Hj.
Qed.
Lemma in_triples (R : csc V) p : p ∈ fst <$> triples_csc R <-> snd p < c_cols R /\ fst p ∈ fst <$> col_entries R (snd p).
Proof.
  unfold triples_csc. rewrite elem_of_list_fmap. split.
  - intros (t & -> & Ht). apply elem_of_list_join in Ht as (l & Ht & Hl). apply elem_of_list_fmap in Hl as (j & -> & Hj). apply elem_of_seq in Hj.
    apply elem_of_list_fmap in Ht as (e & -> & He). cbn. split; [lia|]. apply elem_of_list_fmap. eauto.
  - intros (Hj & He). apply elem_of_list_fmap in He as (e & E & He). exists (fst p, snd p, snd e). split; [destruct p; reflexivity|]. apply elem_of_list_join.
    eexists. split; [|apply elem_of_list_fmap; exists (snd p); split; [reflexivity|apply elem_of_seq; lia]]. apply elem_of_list_fmap. exists e. rewrite E. auto.
Qed.
Lemma in_range (R : csc V) p : wf_csc R -> p ∈ fst <$> triples_csc R -> fst p < c_rows R /\ snd p < c_cols R.
Proof.
  intros Hw Hp. apply in_triples in Hp as (Hj & He). split; [|exact Hj]. apply elem_of_list_fmap in He as (e & -> & He).
  unfold col_entries, row_entries in He. destruct (rowptr (csc_tr R) !! snd p), (rowptr (csc_tr R) !! (snd p + 1)); try (apply elem_of_nil in He; destruct He).
  apply elem_of_take in He as (i & Hk & _). rewrite lookup_drop in Hk. apply lookup_zip_with_Some in Hk as (c & v & -> & Hc & _). exact (wf_range _ Hw _ _ Hc).
Qed.

(** With the arguments gen, a kind of graph, a scale and an edge factor: if the generator ends, the program ends in one way only. Each
    file stands for the positions of one generated matrix, each once and none on the diagonal: the left one for the first, the right one for the second. *)
Theorem C77_generated a0 kind scale degree rest A B : (Z.of_nat scale <= intmax)%Z -> (Z.of_nat degree <= intmax)%Z -> scale <= 32 -> 0 < degree ->
  let m := 2 ^ scale * degree in length (junk m) = m -> length (junkW m) = m ->
  createInputs fuel (junk m) (junkW m) scale degree (p0 (bool_decide (kind = txt "rmat"))) = Ok (A, B) ->
  let left := leftName kind (showNat scale) (showNat degree) in let right := rightName kind (showNat scale) (showNat degree) in
  canOpen left = true -> canOpen right = true ->
  exists fs PL PR, (forall r, genMain dflt ofInt stdsort imax generator readBin files canOpen (a0 :: txt "gen" :: kind :: showNat scale :: showNat degree :: rest) r <->
      r = Ok (0%Z, fs, lastLine (length PL) (length PR) (2 ^ scale))) /\
    fs left = Some (render (patternFile (2 ^ scale) (2 ^ scale) PL)) /\ PL ≡ₚ fst <$> triples_csc A /\
    fs right = Some (render (patternFile (2 ^ scale) (2 ^ scale) PR)) /\ PR ≡ₚ fst <$> triples_csc B /\
    (forall x, x <> left -> x <> right -> fs x = files x) /\
    NoDup PL /\ NoDup PR /\ Forall (fun p => fst p < 2 ^ scale /\ snd p < 2 ^ scale /\ fst p <> snd p) (PL ++ PR).
Proof.
  intros Hs Hd Hs32 Hd0 m HJ HW HC left right HcL HcR.
  destruct (C60_two_inputs fadd fsub fmul fdiv fltb f005 f05 s1 s3 s4 weightAt dflt add srt scale degree _ _ _ fuel A B HC) as (G & p1 & _ & HA & HB & _).
  assert (Q : forall R p, RmatModel.createMatrix fadd fsub fmul fdiv fltb f005 f05 s1 s3 s4 weightAt dflt add srt fuel (junk m) (junkW m) scale degree p = Ok R ->
    wf_csc R /\ c_rows R = 2 ^ scale /\ c_cols R = 2 ^ scale /\ NoDup (fst <$> triples_csc R) /\ Forall (fun p => fst p < 2 ^ scale /\ snd p < 2 ^ scale /\ fst p <> snd p) (fst <$> triples_csc R)).
  { intros R p HR. destruct (C60_matrix fadd fsub fmul fdiv fltb f005 f05 s1 s3 s4 weightAt dflt add ltV srt Hsrt scale degree p (junk m) (junkW m) fuel Hs32 Hd0 HJ HW) as [E|(R' & K & E & Hw & Hr & Hc & Hso & _ & _ & Hdg & _)]; [congruence|].
    assert (R' = R) as -> by congruence. split; [exact Hw|]. split; [exact Hr|]. split; [exact Hc|]. split; [apply pos_nodup, Hso|]. apply Forall_forall. intros q Hq.
    destruct (in_range R q Hw Hq) as [H1 H2]. split; [congruence|]. split; [congruence|]. intros E'. apply in_triples in Hq as (_ & Hq). rewrite E' in Hq. exact (Hdg _ Hq). }
  destruct (Q A _ HA) as (A1 & A2 & A3 & A4 & A5). destruct (Q B _ HB) as (B1 & B2 & B3 & B4 & B5).
  assert (HI : forall r, setInputs dflt ofInt stdsort imax generator readBin files (a0 :: txt "gen" :: kind :: showNat scale :: showNat degree :: rest) r <-> r = Ok (A, B)).
  { intros r. unfold setInputs, arg. cbn [get lookup list_lookup bind]. unfold sameText at 1. rewrite bool_decide_eq_true_2 by reflexivity.
    pose proof (IoProofs.atoi_nat scale [] Hs Logic.I) as E1. pose proof (IoProofs.atoi_nat degree [] Hd Logic.I) as E2. rewrite app_nil_r in E1, E2. rewrite E1, bind_Ok, E2, bind_Ok.
    unfold generator. rewrite !Nat2Z.id. cbv zeta. fold m. unfold sameText. rewrite HC. reflexivity. }
  destruct (main_square dflt ofInt stdsort imax generator readBin files canOpen a0 (txt "gen") kind (showNat scale) (showNat degree) rest A B A1 B1 ltac:(congruence) HI HcL HcR) as (fs & PL & PR & HM & F1 & P1 & F2 & P2 & F3).
  exists fs, PL, PR. rewrite (Permutation_length P1), (Permutation_length P2), (length_tr dflt A A1), (length_tr dflt B B1).
  rewrite A2, A3 in F1. rewrite B2, B3 in F2. rewrite A2 in HM.
  split; [exact HM|]. split; [exact F1|]. split; [exact P1|]. split; [exact F2|]. split; [exact P2|]. split; [exact F3|].
  split; [rewrite P1; exact A4|]. split; [rewrite P2; exact B4|]. apply Forall_app. rewrite P1, P2. split; [exact A5|exact B5].
Qed.
End Generated.
Print Assumptions C77_generated.

(** ** Examples *)
Definition exSq : mmfile := mkMM Integer SymYes [] 2 2 [(1, 1, 4%Z, []); (2, 1, (-7)%Z, [])].
Definition exWide : mmfile := mkMM Pattern SymNo [] 2 3 [(2, 3, 1%Z, []); (1, 1, 1%Z, [])].
Definition exTall : mmfile := mkMM Pattern SymNo [] 3 2 [(3, 1, 1%Z, [])].
Definition exFiles (name : text) : option text :=
  if sameText name (txt "../d/a.mtx") then Some (render exSq) else if sameText name (txt "b.mtx") then Some (render exWide)
  else if sameText name (txt "c.mtx") then Some (render exTall) else if sameText name (txt "./d/a") then Some (render exSq) else None.
Ltac prove_file := eexists; split; [vm_compute; reflexivity|]; split; [left; exists []; rewrite app_nil_r; reflexivity|]; split;
  [|split; [discriminate|split; [repeat constructor|first [reflexivity | discriminate]]]];
  unfold mm_wf; split; [constructor|]; split;
  [apply Forall_forall; intros l Hl; apply Nat.leb_le; revert l Hl; rewrite <- Forall_forall; cbn [exSq exWide exTall mm_entries mm_field fmap list_fmap];
   repeat (apply Forall_cons; split; [vm_compute; reflexivity|]); apply Forall_nil; exact Logic.I|];
  split; [vm_compute; discriminate|]; split; [vm_compute; discriminate|]; split; [vm_compute; discriminate|];
  cbn [exSq exWide exTall mm_entries mm_rows mm_cols]; repeat (apply Forall_cons; split; [split; [lia|split; [lia|split; [vm_compute; discriminate|left; reflexivity]]]|]); apply Forall_nil; exact Logic.I.
Ltac notin := vm_compute; intros H; repeat (apply elem_of_cons in H as [H|H]; [discriminate H|]); inversion H.
Ltac prove_name dir s ext := exists (txt dir), (txt s), (txt ext); split; [reflexivity|]; split; [|split; [discriminate|split; [notin|split; [notin|split; [discriminate|notin]]]]].

(** A symmetric 2 x 2 file left, a 2 x 3 file without values right. *)
Example C77_example : plain_name (txt "../d/a.mtx") /\ holds_file exFiles (txt "../d/a.mtx") exSq /\ holds_file exFiles (txt "b.mtx") exWide /\ mm_rows exSq = mm_cols exSq /\
  positions exSq = [(0, 0); (1, 0); (0, 1)] /\ positions exWide = [(1, 2); (0, 0)] /\
  writeLeft (mkCsc 2 2 3 [0; 2; 3] [0; 1; 0] [4; -7; -7]%Z) = Ok (txt "%%MatrixMarket matrix coordinate pattern general
2 2 3
1 1
2 1
1 2
") /\
  writeRight (mkCsr 2 3 2 [0; 1; 2] [0; 2] [1; 1]%Z) = Ok (txt "%%MatrixMarket matrix coordinate pattern general
2 3 2
1 1
2 3
").
Proof.
  split; [prove_name "../d/"%string "a"%string "mtx"%string; right; exists (txt "../d"); reflexivity|]. split; [prove_file|]. split; [prove_file|].
  split; [reflexivity|]. split; [reflexivity|]. split; [reflexivity|]. split; vm_compute; reflexivity.
Qed.
(** The values are lost: the file of a matrix with the values 4 and -7 is read back with the value 1 everywhere. *)
Example C77_read_back_example : (2 * Z.of_nat (length (positions exSq)) <= intmax)%Z /\ Forall (fun p => fst p < 2 /\ snd p < 2) (positions exSq) /\
  readTriples id None false intmax (Some (render (patternFile 2 2 (positions exSq)))) = Ok (2, 2, [(0%Z, 0%Z, 1%Z); (1%Z, 0%Z, 1%Z); (0%Z, 1%Z, 1%Z)]) /\
  readTriples id None false intmax (Some (render exSq)) = Ok (2, 2, [(0%Z, 0%Z, 4%Z); (1%Z, 0%Z, (-7)%Z); (0%Z, 1%Z, (-7)%Z)]).
Proof. split; [vm_compute; discriminate|]. split; [repeat constructor|]. split; vm_compute; reflexivity. Qed.
(** A 2 x 3 file as the left one: one of its two entries is lost. *)
Example C77_wide_example : plain_name (txt "b.mtx") /\ holds_file exFiles (txt "b.mtx") exWide /\ mm_rows exWide < mm_cols exWide /\
  filter (fun p => snd p < 2) (positions exWide) = [(0, 0)] /\
  writeLeft (mkCsc 2 3 2 [0; 1; 1; 2] [0; 1] [1; 1]%Z) = Ok (txt "%%MatrixMarket matrix coordinate pattern general
2 3 2
1 1
").
Proof. split; [prove_name ""%string "b"%string "mtx"%string; left; reflexivity|]. split; [prove_file|]. split; [cbn; lia|]. split; vm_compute; reflexivity. Qed.
Example C77_tall_example : plain_name (txt "c.mtx") /\ holds_file exFiles (txt "c.mtx") exTall /\ mm_cols exTall < mm_rows exTall.
Proof. split; [prove_name ""%string "c"%string "mtx"%string; left; reflexivity|]. split; [prove_file|]. cbn. lia. Qed.
Example C77_name_example : holds_file exFiles (txt "./d/a") exSq /\ exists n, txt "./d/a" = "."%char :: n /\ "."%char ∉ n.
Proof. split; [prove_file|]. exists (txt "/d/a"). split; [reflexivity|]. notin. Qed.
From Coq Require Import QArith.
From Verif Require Import PropGt.
Local Open Scope nat_scope.
(** Two vertices, edge factor 1, with the draws of [C60_run]. *)
Example C77_generated_example :
  RmatModel.createInputs Qplus Qminus Qmult Qdiv Qltb (1#20) (1#2) C60_s1 (fun _ => 1#2) (fun _ => 1#2) (fun i => 5 + i) 0 Nat.add (foldr insert_edge [])
    10 [9; 9] [8; 8] 1 1 (1#4, 1#4, 1#4, 1#4) = Ok (mkCsc 2 2 2 [0; 1; 2] [1; 0] [6; 5], mkCsc 2 2 2 [0; 1; 2] [1; 0] [6; 5]) /\
  leftName (txt "er") (showNat 1) (showNat 1) = txt "assets/left_er1_1.mtx".
Proof. split; vm_compute; reflexivity. Qed.
