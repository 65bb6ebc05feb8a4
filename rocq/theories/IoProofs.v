(** Proofs about reading text files. *)
From Coq Require Import DecimalNat DecimalFacts.
From Verif Require Import IoSpec IoModel.
From Verif Require Import Base Spec.
Local Open Scope list_scope.

(** * Lines *)
Lemma lines_cons a l : lines (a :: l) = a ++ nlc :: lines l.
Proof. unfold lines. rewrite fmap_cons. cbn [mjoin list_join]. rewrite <- app_assoc. reflexivity. Qed.

Lemma lineLoop_nl l : forall k p r acc b, nlc ∉ l -> length l <= k ->
  lineLoop k p (l ++ nlc :: r) acc b = (acc ++ l, mkIfs (nlc :: rev l ++ p) r false false).
Proof.
  induction l as [|c l IH]; intros k p r acc b Hn Hk; cbn [app lineLoop].
  - rewrite app_nil_r. reflexivity.
  - apply not_elem_of_cons in Hn as [Hc Hn]. destruct (Ascii.eqb_spec c "010") as [->|_]; [destruct Hc; reflexivity|].
    cbn [length] in Hk. destruct k as [|k]; [lia|]. rewrite IH; [|exact Hn|lia]. rewrite <- app_assoc. cbn [rev]. rewrite <- app_assoc. reflexivity.
Qed.
Lemma lineLoop_end l : forall k p acc b, nlc ∉ l -> length l <= k ->
  lineLoop k p l acc b = (acc ++ l, mkIfs (rev l ++ p) [] true (match l with [] => b | _ => false end)).
Proof.
  induction l as [|c l IH]; intros k p acc b Hn Hk; cbn [app lineLoop].
  - rewrite app_nil_r. reflexivity.
  - apply not_elem_of_cons in Hn as [Hc Hn]. destruct (Ascii.eqb_spec c "010") as [->|_]; [destruct Hc; reflexivity|].
    cbn [length] in Hk. destruct k as [|k]; [lia|]. rewrite IH; [|exact Hn|lia]. rewrite <- app_assoc. cbn [rev]. rewrite <- app_assoc.
    destruct l; reflexivity.
Qed.
Lemma cstr_id l : nul ∉ l -> cstr l = l.
Proof.
  induction l as [|c l IH]; intros H; [reflexivity|]. apply not_elem_of_cons in H as [Hc H]. cbn [cstr].
  destruct (Ascii.eqb_spec c "000") as [->|_]; [destruct Hc; reflexivity|]. rewrite IH by exact H. reflexivity.
Qed.
Lemma getline_nl p l r : nlc ∉ l -> nul ∉ l -> length l <= 255 ->
  getline (mkIfs p (l ++ nlc :: r) false false) = (l, mkIfs (nlc :: rev l ++ p) r false false).
Proof.
  intros H1 H2 H3. unfold getline, good. cbn [eofb failb rest past negb andb]. rewrite lineLoop_nl by assumption.
  rewrite app_nil_l, cstr_id by exact H2. reflexivity.
Qed.
Lemma getline_end p l : l <> [] -> nlc ∉ l -> nul ∉ l -> length l <= 255 ->
  getline (mkIfs p l false false) = (l, mkIfs (rev l ++ p) [] true false).
Proof.
  intros Hl H1 H2 H3. unfold getline, good. cbn [eofb failb rest past negb andb]. rewrite lineLoop_end by assumption.
  rewrite app_nil_l, cstr_id by exact H2. destruct l; [congruence|reflexivity].
Qed.

(** * Numerals *)
(** Text of digits only. *)
Definition allDigits (l : text) : Prop := Forall (fun c => isDigit c = true) l.
(** Does not go on with a digit. *)
Definition noDigit (r : text) : Prop := match r with c :: _ => isDigit c = false | [] => True end.

Lemma digit_None c : isDigit c = false -> digit c = None.
Proof. unfold isDigit, digit. intros ->. reflexivity. Qed.
Lemma digits_stop z r : noDigit r -> digits z r = (z, r).
Proof. destruct r as [|c r]; [reflexivity|]. intros H. cbn [digits]. rewrite (digit_None c H). reflexivity. Qed.

Definition utxt (d : uint) : text := txt (NilEmpty.string_of_uint d).
Lemma utxt_digits d : allDigits (utxt d).
Proof. induction d; unfold utxt in *; cbn; constructor; try assumption; reflexivity. Qed.

Lemma digits_step c d z l : digit c = Some d -> digits z (c :: l) = digits (10 * z + d) l.
Proof. intros H. cbn [digits]. rewrite H. reflexivity. Qed.
Lemma digits_utxt d : forall acc r, noDigit r -> digits (Z.of_nat acc) (utxt d ++ r) = (Z.of_nat (Nat.of_uint_acc d acc), r).
Proof.
  induction d as [|d IH|d IH|d IH|d IH|d IH|d IH|d IH|d IH|d IH|d IH]; intros acc r Hr; [apply digits_stop, Hr|..];
    cbn [Nat.of_uint_acc]; rewrite Nat.tail_mul_spec; rewrite <- IH by exact Hr;
    (etransitivity; [apply digits_step; vm_compute; reflexivity|]); f_equal; lia.
Qed.

Lemma showNat_cases n : exists d, Nat.of_uint d = n /\ showNat n = utxt d /\ utxt d <> [].
Proof.
  unfold showNat. pose proof (Unsigned.of_to n) as H. destruct (Nat.to_uint n) as [|d|d|d|d|d|d|d|d|d|d] eqn:E.
  - exists (D0 Nil). split; [cbn in H |- *; exact H|]. split; [reflexivity|discriminate].
  - eexists (D0 d). split; [exact H|]. split; [reflexivity|discriminate].
  - eexists (D1 d). split; [exact H|]. split; [reflexivity|discriminate].
  - eexists (D2 d). split; [exact H|]. split; [reflexivity|discriminate].
  - eexists (D3 d). split; [exact H|]. split; [reflexivity|discriminate].
  - eexists (D4 d). split; [exact H|]. split; [reflexivity|discriminate].
  - eexists (D5 d). split; [exact H|]. split; [reflexivity|discriminate].
  - eexists (D6 d). split; [exact H|]. split; [reflexivity|discriminate].
  - eexists (D7 d). split; [exact H|]. split; [reflexivity|discriminate].
  - eexists (D8 d). split; [exact H|]. split; [reflexivity|discriminate].
  - eexists (D9 d). split; [exact H|]. split; [reflexivity|discriminate].
Qed.
Lemma showNat_digits n : allDigits (showNat n).
Proof. destruct (showNat_cases n) as (d & _ & -> & _). apply utxt_digits. Qed.
Lemma showNat_cons n : exists c l, showNat n = c :: l /\ isDigit c = true /\ allDigits l.
Proof.
  pose proof (showNat_digits n) as H. destruct (showNat_cases n) as (d & _ & E & Hne). rewrite <- E in Hne.
  destruct (showNat n) as [|c l]; [congruence|]. inversion H; subst. eauto.
Qed.
Lemma digits_showNat n r : noDigit r -> digits 0 (showNat n ++ r) = (Z.of_nat n, r).
Proof. intros Hr. destruct (showNat_cases n) as (d & <- & -> & _). exact (digits_utxt d 0 r Hr). Qed.

Lemma digit_neq c x : isDigit c = true -> isDigit x = false -> c <> x.
Proof. intros H1 H2 ->. congruence. Qed.
Lemma digit_eqb c x : isDigit c = true -> isDigit x = false -> Ascii.eqb c x = false.
Proof. intros H1 H2. apply Ascii.eqb_neq, digit_neq; assumption. Qed.
Lemma digit_not_space c : isDigit c = true -> isSpace c = false.
Proof. unfold isDigit, isSpace. intros H. apply andb_prop in H as [H1 H2]. apply Nat.leb_le in H1, H2. cbv zeta.
  destruct (Nat.eqb_spec (nat_of_ascii c) 32); [lia|]. destruct (Nat.leb_spec 9 (nat_of_ascii c)), (Nat.leb_spec (nat_of_ascii c) 13); try reflexivity. lia.
Qed.
Lemma digits_notin l x : allDigits l -> isDigit x = false -> x ∉ l.
Proof. intros H Hx Hin. unfold allDigits in H. rewrite Forall_forall in H. specialize (H x Hin). congruence. Qed.

Lemma inInt z : (Z.abs z <= intmax)%Z -> ((-2147483648 <=? z) && (z <=? 2147483647))%Z = true.
Proof. unfold intmax. intros H. apply andb_true_intro. split; apply Z.leb_le; lia. Qed.
Lemma skipSpace_no c l : isSpace c = false -> skipSpace (c :: l) = c :: l.
Proof. intros H. cbn [skipSpace]. rewrite H. reflexivity. Qed.
Lemma atoi_nat n r : (Z.of_nat n <= intmax)%Z -> noDigit r -> atoi (showNat n ++ r) = Ok (Z.of_nat n).
Proof.
  intros Hn Hr. pose proof (digits_showNat n r Hr) as E. destruct (showNat_cons n) as (c & l & El & Hc & _). rewrite El in E |- *. cbn [app] in *.
  unfold atoi. rewrite (skipSpace_no c) by (apply digit_not_space, Hc). cbv zeta. rewrite (digit_eqb c "-") by (assumption || reflexivity).
  rewrite (digit_eqb c "+") by (assumption || reflexivity). rewrite E. cbn [fst]. rewrite inInt by lia. reflexivity.
Qed.
Lemma atoi_Z v r : (Z.abs v <= intmax)%Z -> noDigit r -> atoi (showZ v ++ r) = Ok v.
Proof.
  intros Hv Hr. unfold showZ. destruct (Z.ltb_spec v 0) as [H|H].
  - cbn [app]. unfold atoi. rewrite skipSpace_no by reflexivity. cbv zeta. cbn [Ascii.eqb Bool.eqb]. rewrite digits_showNat by exact Hr. cbn [fst].
    replace (- Z.of_nat (Z.to_nat (- v)))%Z with v by lia. rewrite inInt by exact Hv. reflexivity.
  - rewrite atoi_nat; [f_equal; lia|lia|exact Hr].
Qed.

Lemma strchr_no l : (" "%char : ascii) ∉ l -> strchr l = None.
Proof.
  induction l as [|c l IH]; intros H; [reflexivity|]. apply not_elem_of_cons in H as [Hc H]. cbn [strchr].
  destruct (Ascii.eqb_spec c " ") as [->|_]; [destruct Hc; reflexivity|]. apply IH, H.
Qed.
Lemma strchr_app l r : (" "%char : ascii) ∉ l -> strchr (l ++ " "%char :: r) = Some (" "%char :: r).
Proof.
  induction l as [|c l IH]; intros H; [reflexivity|]. apply not_elem_of_cons in H as [Hc H]. cbn [strchr app].
  destruct (Ascii.eqb_spec c " ") as [->|_]; [destruct Hc; reflexivity|]. apply IH, H.
Qed.

Section Lines.
Context {V : Type} (ofInt : Z -> V).

(** The fraction behind a value. *)
Definition fraction (fr : text) : Prop := fr = [] \/ exists ds, fr = "."%char :: ds /\ Forall (fun x => isDigit x = true) ds.
Lemma fraction_noDigit fr : fraction fr -> noDigit fr.
Proof. intros [->|(ds & -> & _)]; [exact I|reflexivity]. Qed.
Lemma fraction_notin fr x : fraction fr -> isDigit x = false -> x <> "."%char -> x ∉ fr.
Proof.
  intros [->|(ds & -> & H)] Hx Hp; [apply not_elem_of_nil|]. apply not_elem_of_cons. split; [exact Hp|]. apply (digits_notin ds x H Hx).
Qed.
Lemma showZ_notin v x : isDigit x = false -> x <> "-"%char -> x ∉ showZ v.
Proof.
  intros Hx Hm. unfold showZ. destruct (v <? 0)%Z.
  - apply not_elem_of_cons. split; [exact Hm|]. apply digits_notin; [apply showNat_digits|exact Hx].
  - apply digits_notin; [apply showNat_digits|exact Hx].
Qed.

Lemma parseLine_ok k r c v fr : (Z.of_nat r <= intmax)%Z -> (Z.of_nat c <= intmax)%Z -> (Z.abs v <= intmax)%Z -> fraction fr ->
  parseLine ofInt (entryLine k (r, c, v, fr)) = Ok (Z.of_nat r, Z.of_nat c, ofInt (value_of k v)).
Proof.
  intros Hr Hc Hv Hf. unfold parseLine, entryLine.
  set (t := match k with Pattern => [] | _ => txt " " ++ showZ v ++ fr end).
  change (txt " " ++ showNat c ++ t) with (" "%char :: showNat c ++ t).
  rewrite atoi_nat by (assumption || reflexivity). cbn [bind].
  rewrite strchr_app by (apply digits_notin; [apply showNat_digits|reflexivity]).
  assert (Ht : noDigit t) by (unfold t; destruct k; reflexivity || exact I).
  rewrite (atoi_nat c t Hc Ht). cbn [bind].
  assert (Hs : (" "%char : ascii) ∉ showNat c) by (apply digits_notin; [apply showNat_digits|reflexivity]).
  assert (G : match strchr (showNat c ++ " "%char :: showZ v ++ fr) with
     | Some (_ :: ch) => v <- atoi ch ;; Ok (Z.of_nat r, Z.of_nat c, ofInt v)
     | _ => Ok (Z.of_nat r, Z.of_nat c, ofInt 1)
     end = Ok (Z.of_nat r, Z.of_nat c, ofInt v)).
  { rewrite (strchr_app _ _ Hs). rewrite (atoi_Z v fr Hv (fraction_noDigit fr Hf)). reflexivity. }
  unfold t. destruct k; [exact G|exact G|].
  rewrite app_nil_r, (strchr_no _ Hs). reflexivity.
Qed.

Lemma entryLine_plain k r c v fr x : fraction fr -> isDigit x = false -> x <> "."%char -> x <> "-"%char -> x <> " "%char ->
  x ∉ entryLine k (r, c, v, fr).
Proof.
  intros Hf Hx H1 H2 H3. unfold entryLine. rewrite !not_elem_of_app. split; [apply digits_notin; [apply showNat_digits|exact Hx]|].
  split; [intros Hin; apply elem_of_list_singleton in Hin; congruence|].
  split; [apply digits_notin; [apply showNat_digits|exact Hx]|].
  assert (G : x ∉ txt " " ++ showZ v ++ fr).
  { rewrite !not_elem_of_app. split; [intros Hin; apply elem_of_list_singleton in Hin; congruence|].
    split; [apply showZ_notin; assumption|apply fraction_notin; assumption]. }
  destruct k; [exact G|exact G|apply not_elem_of_nil].
Qed.
Lemma entryLine_ne k e : entryLine k e <> [].
Proof. destruct e as [[[r c] v] fr]. unfold entryLine. destruct (showNat_cons r) as (x & l & -> & _). discriminate. Qed.
End Lines.

(** * The size line *)
Lemma extract_nat imax n r : (Z.of_nat n <= imax)%Z -> noDigit r ->
  extract imax (showNat n ++ r, true) = Ok (Some (Z.of_nat n), (r, true)).
Proof.
  intros Hn Hr. pose proof (digits_showNat n r Hr) as E. destruct (showNat_cons n) as (c & l & El & Hc & _). rewrite El in E |- *. cbn [app] in *.
  unfold extract. cbn [negb]. rewrite skipSpace_no by (apply digit_not_space, Hc).
  rewrite (digit_eqb c "-") by (assumption || reflexivity). rewrite (digit_eqb c "+") by (assumption || reflexivity). cbv zeta.
  assert (exists d, digit c = Some d) as [d ->] by (unfold digit, isDigit in *; rewrite Hc; eauto). rewrite E.
  destruct (Z.leb_spec (Z.of_nat n) imax); [reflexivity|lia].
Qed.
Lemma extract_sp imax t : extract imax (txt " " ++ t, true) = extract imax (t, true).
Proof. reflexivity. Qed.

(** * Comments *)
Lemma isPrefix_ok p l : isPrefix p l = true <-> exists b, l = p ++ b.
Proof.
  revert l. induction p as [|a p IH]; intros l; [split; [intros _; exists l; reflexivity|reflexivity]|].
  destruct l as [|c l]; cbn [isPrefix]; [split; [discriminate|intros (b & [=])]|].
  rewrite andb_true_iff, IH. destruct (Ascii.eqb_spec a c) as [->|Hne].
  - split; [intros [_ (b & ->)]; exists b; reflexivity|intros (b & [= ->]); eauto].
  - split; [intros [[=] _]|intros (b & [=]); congruence].
Qed.
Lemma strstr_ok needle l : strstr needle l = true <-> occurs needle l.
Proof.
  induction l as [|c l IH].
  - cbn [strstr]. rewrite orb_false_r, isPrefix_ok. split; [intros (b & E); exists [], b; exact E|].
    intros (a & b & E). destruct a; [exists b; exact E|discriminate].
  - cbn [strstr]. rewrite orb_true_iff, isPrefix_ok, IH. split.
    + intros [(b & E)|(a & b & ->)]; [exists [], b; exact E|]. exists (c :: a), b. reflexivity.
    + intros (a & b & E). destruct a as [|x a]; [left; exists b; exact E|]. right. injection E as -> E. exists a, b. exact E.
Qed.

Lemma commentLoop_ok cs : forall fuel p r sym (x : ascii), x <> "%"%char ->
  Forall (fun c => nlc ∉ c /\ nul ∉ c /\ length c <= 255) cs -> length cs < fuel ->
  exists p', (let '(c, s) := getc (mkIfs p (lines ((fun c => "%"%char :: c) <$> cs) ++ x :: r) false false) in commentLoop fuel c sym s) =
    Ok (sym || existsb (strstr (txt "symmetric")) cs, mkIfs p' (x :: r) false false).
Proof.
  induction cs as [|c cs IH]; intros fuel p r sym x Hx Hcs Hf.
  - cbn [fmap list_fmap lines mjoin list_join app getc good eofb failb rest past negb andb existsb].
    destruct fuel as [|fuel]; [simpl in Hf; lia|]. cbn [commentLoop]. destruct (Ascii.eqb_spec x "%") as [E|_]; [congruence|].
    exists p. rewrite orb_false_r. reflexivity.
  - inversion Hcs as [|? ? (H1 & H2 & H3) Hcs']; subst.
    change (lines ((fun c => "%"%char :: c) <$> c :: cs)) with (("%"%char :: c ++ [nlc]) ++ lines ((fun c => "%"%char :: c) <$> cs)).
    cbn [app]. unfold getc at 1. cbn [good eofb failb rest past negb andb]. destruct fuel as [|fuel]; [simpl in Hf; lia|].
    cbn [commentLoop]. cbn [Ascii.eqb Bool.eqb]. rewrite <- !app_assoc. cbn [app]. rewrite (getline_nl _ c) by assumption.
    cbn [length] in Hf. destruct (IH fuel (nlc :: rev c ++ "%"%char :: p) r (sym || strstr (txt "symmetric") c) x Hx Hcs' ltac:(lia)) as (p' & E).
    exists p'. cbn [existsb]. rewrite orb_assoc. exact E.
Qed.

(** * The entries *)
Section Entries.
Context {V : Type} (ofInt : Z -> V) (rand : option (nat -> V)) (rd : bool) (kf : field).

Notation entry := (nat * nat * Z * text)%type.
(** Fits. *)
Definition entryOk (e : entry) : Prop :=
  let '(r, c, v, fr) := e in (Z.of_nat r <= intmax)%Z /\ (Z.of_nat c <= intmax)%Z /\ (Z.abs v <= intmax)%Z /\ fraction fr /\
  length (entryLine kf e) <= 255.
(** What the loop makes of the [k]-th entry line. *)
Definition outOf (sym : bool) (k : nat) (e : entry) : list (Z * Z * V) :=
  let '(r, c, v, _) := e in
  let x := match rand with Some f => f k | None => ofInt (value_of kf v) end in
  let r := Z.of_nat r in let c := Z.of_nat c in
  if rd && Z.eqb r c then [] else
  if sym && negb (Z.eqb r c) then [((r - 1)%Z, (c - 1)%Z, x); ((c - 1)%Z, (r - 1)%Z, x)] else [((r - 1)%Z, (c - 1)%Z, x)].
Fixpoint outs (sym : bool) (k : nat) (es : list entry) : list (Z * Z * V) :=
  match es with [] => [] | e :: es => outOf sym k e ++ outs sym (S k) es end.

(** The rest of the input: complete lines and anything behind them, or the last line without its newline. *)
Inductive input : list text -> text -> Prop :=
| in_all ls tail : input ls (lines ls ++ tail)
| in_last ls l : input (ls ++ [l]) (lines ls ++ l).

Lemma take_set {A} (arr : list (option A)) acc x : take (length acc) arr = Some <$> acc -> length acc < length arr ->
  set_ arr (length acc) (Some x) = Ok (<[length acc := Some x]> arr) /\
  take (length (acc ++ [x])) (<[length acc := Some x]> arr) = Some <$> (acc ++ [x]).
Proof.
  intros Ht Hl. unfold set_. destruct (Nat.ltb_spec (length acc) (length arr)); [|lia]. split; [reflexivity|].
  rewrite app_length. cbn [length]. rewrite Nat.add_1_r.
  rewrite (take_S_r _ _ (Some x)) by (apply list_lookup_insert; lia). rewrite take_insert by lia. rewrite Ht, fmap_app. reflexivity.
Qed.

Lemma entryLoop_ok (sym : bool) es : forall fuel k p t (acc : list (Z * Z * V)) nz arr,
  input (entryLine kf <$> es) t -> Forall entryOk es -> length es < fuel ->
  nz = length acc + (if sym then 2 * length es else length es) -> nz <= length arr -> take (length acc) arr = Some <$> acc ->
  exists arr', entryLoop ofInt rand rd fuel k sym (mkIfs p t false false) (length acc) nz arr =
    Ok (length (acc ++ outs sym k es), length (acc ++ outs sym k es), arr') /\
    take (length (acc ++ outs sym k es)) arr' = Some <$> (acc ++ outs sym k es).
Proof.
  induction es as [|e es IH]; intros fuel k p t acc nz arr Hin Hok Hf Hnz Hlen Htake.
  - destruct fuel as [|fuel]; [simpl in Hf; lia|]. cbn [entryLoop eofb]. cbn [length] in Hnz.
    assert (nz = length acc) as -> by (destruct sym; lia). rewrite Nat.ltb_irrefl. cbn [negb orb outs]. rewrite app_nil_r. eauto.
  - inversion Hok as [|? ? He Hok']; subst. destruct fuel as [|fuel]; [simpl in Hf; lia|]. cbn [length] in Hf.
    destruct e as [[[r c] v] fr] eqn:Ee. destruct He as (Hr & Hc & Hv & Hfr & Hl).
    (* the line is read; [s] is the state behind it *)
    assert (HL : exists s, getline (mkIfs p t false false) = (entryLine kf (r, c, v, fr), s) /\
      ((exists p' t', s = mkIfs p' t' false false /\ input (entryLine kf <$> es) t') \/ (es = [] /\ eofb s = true))).
    { assert (N1 : nlc ∉ entryLine kf (r, c, v, fr)) by (apply entryLine_plain; [exact Hfr|reflexivity|discriminate..]).
      assert (N2 : nul ∉ entryLine kf (r, c, v, fr)) by (apply entryLine_plain; [exact Hfr|reflexivity|discriminate..]).
      rewrite fmap_cons in Hin. remember (entryLine kf (r, c, v, fr) :: (entryLine kf <$> es)) as L eqn:E1.
      destruct Hin as [ls tail|ls l].
      - subst ls. rewrite lines_cons, <- app_assoc, <- app_comm_cons.
        eexists. split; [apply getline_nl; assumption|]. left. eexists _, _. split; [reflexivity|]. constructor.
      - destruct ls as [|x ls].
        + injection E1 as El Ees. symmetry in Ees. apply fmap_nil_inv in Ees. subst es l. cbn [app lines fmap list_fmap mjoin list_join].
          eexists. split; [apply getline_end; try assumption; apply entryLine_ne|]. right. split; reflexivity.
        + injection E1 as Ex Els. subst x.
          rewrite lines_cons, <- app_assoc, <- app_comm_cons.
          eexists. split; [apply getline_nl; assumption|]. left. eexists _, _. split; [reflexivity|].
          rewrite <- Els. constructor. }
    destruct HL as (s & HL & Hs).
    (* the loop from there on *)
    assert (IH' : forall (acc : list (Z * Z * V)) nz arr, nz = length acc + (if sym then 2 * length es else length es) -> nz <= length arr ->
      take (length acc) arr = Some <$> acc ->
      exists arr', entryLoop ofInt rand rd fuel (S k) sym s (length acc) nz arr =
        Ok (length (acc ++ outs sym (S k) es), length (acc ++ outs sym (S k) es), arr') /\
        take (length (acc ++ outs sym (S k) es)) arr' = Some <$> (acc ++ outs sym (S k) es)).
    { intros acc' nz' arr' E1 E2 E3. destruct Hs as [(p' & t' & -> & Hin')|(-> & Heof)].
      - apply (IH fuel (S k) p' t' acc' nz' arr' Hin' Hok' ltac:(lia) E1 E2 E3).
      - destruct fuel as [|fuel]; [simpl in Hf; lia|]. cbn [entryLoop]. rewrite Heof. cbn [orb outs length] in *. rewrite app_nil_r.
        assert (nz' = length acc') as -> by (destruct sym; lia). eauto. }
    cbn [entryLoop eofb orb]. cbn [length] in Hlen.
    destruct (Nat.ltb_spec (length acc) (length acc + (if sym then 2 * length ((r, c, v, fr) :: es) else length ((r, c, v, fr) :: es)))) as [_|Hbad];
      [|exfalso; cbn [length] in Hbad; destruct sym; lia].
    cbn [negb]. rewrite HL. rewrite (parseLine_ok ofInt kf r c v fr Hr Hc Hv Hfr). cbn [bind].
    set (x := match rand with Some f => f k | None => ofInt (value_of kf v) end).
    cbn [outs]. unfold outOf. fold x. cbv zeta.
    destruct (rd && (Z.of_nat r =? Z.of_nat c)%Z) eqn:Erd.
    + cbn [app]. apply IH'; [destruct sym; cbn [length]; lia|destruct sym; cbn [length]; lia|exact Htake].
    + assert (Hroom : length acc < length arr) by (destruct sym; lia).
      destruct (take_set arr acc ((Z.of_nat r - 1)%Z, (Z.of_nat c - 1)%Z, x) Htake Hroom) as [Eset Etake].
      rewrite Eset. cbn [bind]. set (arr1 := <[_ := _]> arr) in *.
      assert (Hl1 : length arr1 = length arr) by apply insert_length.
      assert (Hacc1 : length acc + 1 = length (acc ++ [((Z.of_nat r - 1)%Z, (Z.of_nat c - 1)%Z, x)])) by (rewrite app_length; reflexivity).
      destruct sym; cbn [andb].
      * replace ((Z.of_nat r - 1 =? Z.of_nat c - 1)%Z) with ((Z.of_nat r =? Z.of_nat c)%Z)
          by (destruct (Z.eqb_spec (Z.of_nat r) (Z.of_nat c)), (Z.eqb_spec (Z.of_nat r - 1) (Z.of_nat c - 1)); lia).
        destruct (Z.of_nat r =? Z.of_nat c)%Z; cbn [negb].
        -- rewrite Hacc1. rewrite app_assoc. apply IH'; [rewrite app_length; cbn [length]; lia|rewrite Hl1; cbn [length]; lia|exact Etake].
        -- rewrite Hacc1.
           destruct (take_set arr1 _ ((Z.of_nat c - 1)%Z, (Z.of_nat r - 1)%Z, x) Etake) as [Eset2 Etake2]; [rewrite app_length; cbn [length]; lia|].
           rewrite Eset2. cbn [bind]. set (arr2 := <[_ := _]> arr1) in *.
           assert (Hl2 : length arr2 = length arr1) by apply insert_length.
           replace (acc ++ [((Z.of_nat r - 1)%Z, (Z.of_nat c - 1)%Z, x); ((Z.of_nat c - 1)%Z, (Z.of_nat r - 1)%Z, x)] ++ outs true (S k) es)
             with (((acc ++ [((Z.of_nat r - 1)%Z, (Z.of_nat c - 1)%Z, x)]) ++ [((Z.of_nat c - 1)%Z, (Z.of_nat r - 1)%Z, x)]) ++ outs true (S k) es)
             by (rewrite <- !app_assoc; reflexivity).
           rewrite Nat.add_1_r. replace (S (length (acc ++ [((Z.of_nat r - 1)%Z, (Z.of_nat c - 1)%Z, x)])))
             with (length ((acc ++ [((Z.of_nat r - 1)%Z, (Z.of_nat c - 1)%Z, x)]) ++ [((Z.of_nat c - 1)%Z, (Z.of_nat r - 1)%Z, x)]))
             by (rewrite !app_length; cbn [length]; lia).
           apply IH'; [rewrite !app_length; cbn [length]; lia|rewrite Hl2, Hl1; cbn [length]; lia|exact Etake2].
      * rewrite Hacc1. rewrite app_assoc. apply IH'; [rewrite app_length; cbn [length]; lia|rewrite Hl1; cbn [length]; lia|exact Etake].
Qed.

(** Collecting the triples. *)
Lemma collect (arr : list (option (Z * Z * V))) its : take (length its) arr = Some <$> its ->
  foldM (fun its i => x <- getI arr i ;; Ok (its ++ [x])) (seq 0 (length its)) [] = Ok its.
Proof.
  intros Ht. assert (G : forall l acc, its = acc ++ l -> foldM (fun its i => x <- getI arr i ;; Ok (its ++ [x])) (seq (length acc) (length l)) acc = Ok its).
  { induction l as [|x l IH]; intros acc E; [rewrite app_nil_r in E; subst; reflexivity|].
    cbn [length seq foldM]. assert (getI arr (length acc) = Ok x) as ->.
    { unfold getI. assert (arr !! length acc = Some (Some x)) as ->; [|reflexivity].
      assert (length acc < length its) by (rewrite E, app_length; cbn [length]; lia).
      rewrite <- (lookup_take arr (length its)) by assumption. rewrite Ht, list_lookup_fmap, E, lookup_app_r by lia. rewrite Nat.sub_diag. reflexivity. }
    cbn [bind]. replace (S (length acc)) with (length (acc ++ [x])) by (rewrite app_length; cbn [length]; lia). apply IH. rewrite <- app_assoc. exact E. }
  exact (G its [] eq_refl).
Qed.
End Entries.

(** * The whole file *)
Lemma lines_length ls : length ls <= length (lines ls).
Proof. induction ls as [|a ls IH]; [reflexivity|]. rewrite lines_cons, app_length. cbn [length]. lia. Qed.
Lemma input_length ls t : input ls t -> length ls <= length t + 1.
Proof. intros [? ?|? ?]; rewrite !app_length; pose proof (lines_length ls0); cbn [length]; lia. Qed.

Definition pct (c : text) : text := "%"%char :: c.
(** The text of a file whose entry lines are given. *)
Definition fileText (cs : list text) (size body : text) : text := lines (pct <$> cs) ++ lines [size] ++ body.

Section Whole.
Context {V : Type} (ofInt : Z -> V) (rand : option (nat -> V)) (rd : bool) (kf : field) (imax : Z).

Lemma readTriples_ok cs m n es body :
  (intmax <= imax)%Z -> Forall (fun c => nlc ∉ c /\ nul ∉ c /\ length c <= 255) cs ->
  let size := showNat m ++ txt " " ++ showNat n ++ txt " " ++ showNat (length es) in
  length size <= 255 -> (Z.of_nat m <= intmax)%Z -> (Z.of_nat n <= intmax)%Z -> (2 * Z.of_nat (length es) <= intmax)%Z ->
  Forall (entryOk kf) es -> input (entryLine kf <$> es) body ->
  readTriples ofInt rand rd imax (Some (fileText cs size body)) =
    Ok (m, n, outs ofInt rand rd kf (existsb (strstr (txt "symmetric")) cs) 0 es).
Proof.
  intros Hi Hcs size Hsize Hm Hn Hk Hes Hin. set (sym := existsb (strstr (txt "symmetric")) cs).
  unfold readTriples, openFile.
  assert (exists x sz, size = x :: sz /\ isDigit x = true) as (x & sz & Esz & Hx).
  { unfold size. destruct (showNat_cons m) as (c & l & -> & Hc & _). eauto. }
  set (s0 := mkIfs [] (fileText cs size body) false false).
  assert (Es0 : s0 = mkIfs [] (lines (pct <$> cs) ++ x :: (sz ++ nlc :: body)) false false).
  { unfold s0, fileText. rewrite lines_cons. cbn [lines]. change (lines []) with ([] : text). rewrite Esz. rewrite <- !app_assoc. reflexivity. }
  assert (HC : forall fuel, length cs < fuel -> exists p', (let '(c, s) := getc s0 in commentLoop fuel c false s) =
     Ok (sym, mkIfs p' (x :: (sz ++ nlc :: body)) false false)).
  { intros fuel Hf. rewrite Es0. apply (commentLoop_ok cs fuel [] (sz ++ nlc :: body) false x); [|exact Hcs|exact Hf].
    apply digit_neq; [exact Hx|reflexivity]. }
  destruct (getc s0) as [c s] eqn:Eg.
  assert (Hlen : length (rest s) + 2 > length cs).
  { assert (length (rest s0) <= length (rest s) + 1).
    { revert Eg. unfold getc. subst s0. unfold good. cbn [rest past eofb failb negb andb]. destruct (fileText cs size body); intros [= <- <-]; cbn [rest length]; lia. }
    pose proof (lines_length (pct <$> cs)) as Hll. rewrite fmap_length in Hll.
    assert (length (lines (pct <$> cs)) <= length (rest s0)) by (subst s0; cbn [rest]; unfold fileText; rewrite app_length; lia). lia. }
  destruct (HC _ Hlen) as (p' & EC). rewrite EC. cbn [bind].
  change (x :: sz ++ nlc :: body) with ((x :: sz) ++ nlc :: body). rewrite <- Esz.
  assert (Nsz : forall y, isDigit y = false -> y <> " "%char -> y ∉ size).
  { intros y Hy Hsp. unfold size. rewrite !not_elem_of_app.
    repeat split; try (apply digits_notin; [apply showNat_digits|exact Hy]); intros Hiny; apply elem_of_list_singleton in Hiny; congruence. }
  rewrite getline_nl; [|apply Nsz; [reflexivity|discriminate]|apply Nsz; [reflexivity|discriminate]|exact Hsize].
  unfold size at 1. rewrite extract_nat by (lia || reflexivity). cbn [bind]. rewrite extract_sp.
  rewrite extract_nat by (lia || reflexivity). cbn [bind]. rewrite extract_sp.
  rewrite <- (app_nil_r (showNat (length es))). rewrite extract_nat by (lia || exact I). cbn [bind used].
  set (nz := if sym then 2 * length es else length es).
  assert ((if sym then if (2 * Z.of_nat (length es) <=? imax)%Z then Ok (2 * Z.of_nat (length es))%Z else Err OutOfBounds else Ok (Z.of_nat (length es))) =
    Ok (Z.of_nat nz)) as ->.
  { unfold nz. destruct sym; [|reflexivity]. destruct (Z.leb_spec (2 * Z.of_nat (length es)) imax); [f_equal; lia|lia]. }
  cbn [bind]. rewrite Nat2Z.id. cbn [rest].
  destruct (entryLoop_ok ofInt rand rd kf sym es (length body + 2) 0 (nlc :: rev size ++ p') body [] nz (replicate nz None) Hin Hes) as (arr' & EL & HT).
  - apply input_length in Hin. rewrite fmap_length in Hin. lia.
  - reflexivity.
  - rewrite replicate_length. reflexivity.
  - reflexivity.
  - cbn [length] in EL. rewrite EL. cbn [bind assert_ app]. rewrite Nat.eqb_refl. cbn [assert_ bind].
    rewrite collect; [|exact HT]. cbn [bind used app]. rewrite !Nat2Z.id. reflexivity.
Qed.
End Whole.

(** * Reading always comes to an end *)
Lemma lineLoop_rest r : forall k p acc b l s, lineLoop k p r acc b = (l, s) ->
  (eofb s = true \/ failb s = true \/ length (rest s) < length r) /\ length (rest s) <= length r.
Proof.
  induction r as [|c r IH]; intros k p acc b l s E; cbn [lineLoop] in E.
  - injection E as <- <-. cbn. auto.
  - destruct (Ascii.eqb c "010"); [injection E as <- <-; cbn; split; [right; right; lia|lia]|].
    destruct k as [|k]; [injection E as <- <-; cbn; split; [auto|lia]|].
    apply IH in E as [E1 E2]. cbn [length]. split; [|lia]. destruct E1 as [E1|[E1|E1]]; auto.
Qed.
Lemma getline_rest s l s' : getline s = (l, s') ->
  length (rest s') <= length (rest s) /\ (good s = true -> eofb s' = true \/ failb s' = true \/ length (rest s') < length (rest s)) /\
  (good s = false -> l = [] /\ failb s' = true /\ eofb s' = eofb s).
Proof.
  unfold getline. destruct (good s) eqn:Eg.
  - destruct (lineLoop 255 (past s) (rest s) [] true) as [l0 s0] eqn:E. intros [= <- <-]. apply lineLoop_rest in E as [E1 E2]. split; [exact E2|].
    split; [intros _; exact E1|discriminate].
  - intros [= <- <-]. cbn. split; [lia|]. split; [discriminate|auto].
Qed.
Lemma getc_rest s c s' : getc s = (Some c, s') -> length (rest s') < length (rest s).
Proof. unfold getc. destruct (good s); [|discriminate]. destruct (rest s) as [|x r]; [discriminate|]. intros [= <- <-]. cbn. lia. Qed.

Lemma commentLoop_ends fuel : forall c sym s, (match c with Some _ => length (rest s) + 2 | None => 1 end) <= fuel ->
  commentLoop fuel c sym s <> Err OutOfFuel.
Proof.
  induction fuel as [|fuel IH]; intros c sym s Hf; [destruct c; lia|]. cbn [commentLoop]. destruct c as [c|]; [|discriminate].
  destruct (Ascii.eqb c "%"); [|discriminate]. destruct (getline s) as [l s1] eqn:E1. destruct (getc s1) as [c2 s2] eqn:E2.
  apply IH. apply getline_rest in E1 as [E1 _]. destruct c2; [|lia]. apply getc_rest in E2. lia.
Qed.

Section Ends.
Context {V : Type} (ofInt : Z -> V) (rand : option (nat -> V)) (rd : bool).
Lemma atoi_fuel l : atoi l <> Err OutOfFuel.
Proof. unfold atoi. destruct (_ && _)%Z; discriminate. Qed.
Lemma parseLine_fuel l : parseLine ofInt l <> Err OutOfFuel.
Proof.
  unfold parseLine. pose proof (atoi_fuel l). destruct (atoi l) as [r|e]; cbn [bind]; [|congruence].
  destruct (strchr l) as [[|? ch]|]; try discriminate. pose proof (atoi_fuel ch). destruct (atoi ch) as [c|e]; cbn [bind]; [|congruence].
  destruct (strchr ch) as [[|? ch']|]; try discriminate. pose proof (atoi_fuel ch'). destruct (atoi ch') as [v|e]; cbn [bind]; congruence.
Qed.
Lemma set_fuel {A} (l : list A) i x : set_ l i x <> Err OutOfFuel.
Proof. unfold set_. destruct (_ <? _); discriminate. Qed.
Lemma entryLoop_ends fuel : forall k sym s cnz nz arr, (if good s then length (rest s) + 2 else 1) <= fuel ->
  entryLoop ofInt rand rd fuel k sym s cnz nz arr <> Err OutOfFuel.
Proof.
  induction fuel as [|fuel IH]; intros k sym s cnz nz arr Hf; [destruct (good s); lia|]. cbn [entryLoop].
  destruct (eofb s) eqn:Ee; [discriminate|]. destruct (cnz <? nz); [|discriminate]. cbn [orb negb].
  destruct (getline s) as [line s1] eqn:E1. apply getline_rest in E1 as (E0 & E1 & E2). destruct (good s) eqn:Eg.
  - specialize (E1 eq_refl).
    assert (Hs1 : (if good s1 then length (rest s1) + 2 else 1) <= fuel).
    { destruct (good s1) eqn:Eg1; [|lia]. unfold good in Eg1. apply andb_prop in Eg1 as [F1 F2]. apply negb_true_iff in F1, F2.
      destruct E1 as [E1|[E1|E1]]; [congruence|congruence|lia]. }
    pose proof (parseLine_fuel line) as Hp. destruct (parseLine ofInt line) as [[[rid cid] v]|e]; cbn [bind]; [|congruence].
    destruct (rd && _); [apply IH, Hs1|].
    match goal with |- context [set_ arr ?i ?x] => pose proof (set_fuel arr i x); destruct (set_ arr i x) as [arr1|e] end; cbn [bind]; [|congruence].
    destruct sym; [|apply IH, Hs1]. destruct (negb _); [|apply IH, Hs1].
    match goal with |- context [set_ arr1 ?i ?x] => pose proof (set_fuel arr1 i x); destruct (set_ arr1 i x) as [arr2|e] end; cbn [bind]; [|congruence].
    apply IH, Hs1.
  - specialize (E2 eq_refl) as (-> & _). cbn [parseLine]. unfold parseLine. cbn. discriminate.
Qed.
Lemma extract_fuel imax s : extract imax s <> Err OutOfFuel.
Proof.
  unfold extract. destruct s as [l ok]. destruct (negb ok); [discriminate|]. destruct (skipSpace l) as [|c l']; [discriminate|].
  destruct (Ascii.eqb c "-"); [discriminate|]. cbv zeta. destruct (if Ascii.eqb c "+" then l' else c :: l') as [|d t]; [discriminate|].
  destruct (digit d); [|discriminate]. destruct (digits 0 (d :: t)) as [z1 r1]. destruct (z1 <=? imax)%Z; discriminate.
Qed.
Lemma collect_fuel (arr : list (option (Z * Z * V))) is acc :
  foldM (fun its i => x <- getI arr i ;; Ok (its ++ [x])) is acc <> Err OutOfFuel.
Proof.
  revert acc. induction is as [|i is IH]; intros acc; cbn [foldM]; [discriminate|].
  unfold getI. destruct (arr !! i) as [[x|]|]; cbn [bind]; [apply IH|discriminate|discriminate].
Qed.
Lemma readTriples_ends imax f : readTriples ofInt rand rd imax f <> Err OutOfFuel.
Proof.
  unfold readTriples. destruct (getc (openFile f)) as [c s] eqn:Eg.
  pose proof (commentLoop_ends (length (rest s) + 2) c false s) as Hc. destruct (commentLoop _ c false s) as [[sym s1]|e]; cbn [bind];
    [|specialize (Hc ltac:(destruct c; lia)); congruence].
  destruct (getline s1) as [line s2]. pose proof (extract_fuel imax (line, true)) as H1. destruct (extract imax (line, true)) as [[m ss]|e]; cbn [bind]; [|congruence].
  pose proof (extract_fuel imax ss) as H2. destruct (extract imax ss) as [[n ss2]|e]; cbn [bind]; [|congruence].
  pose proof (extract_fuel imax ss2) as H3. destruct (extract imax ss2) as [[nz ss3]|e]; cbn [bind]; [|congruence].
  destruct nz as [nz|]; cbn [used bind]; [|discriminate].
  assert (Hz : forall nz' : Z, (its0 <- match f with
      | Some _ => '(cnz, nz, arr) <- entryLoop ofInt rand rd (length (rest s2) + 2) 0 sym s2 0 (Z.to_nat nz') (replicate (Z.to_nat nz') None) ;;
                  _ <- assert_ (cnz =? nz) ;; Ok (nz, arr)
      | None => Ok (Z.to_nat nz', replicate (Z.to_nat nz') None)
      end ;; (let '(nz, arr) := its0 in its <- foldM (fun its i => x <- getI arr i ;; Ok (its ++ [x])) (seq 0 nz) [] ;;
        m <- used m ;; n <- used n ;; Ok (Z.to_nat m, Z.to_nat n, its))) <> Err OutOfFuel).
  { intros nz'. assert (Hk : forall arr0 nz0, (its <- foldM (fun its i => x <- getI arr0 i ;; Ok (its ++ [x])) (seq 0 nz0) [] ;;
        m <- used m ;; n <- used n ;; Ok (Z.to_nat m, Z.to_nat n, its : list (Z * Z * V))) <> Err OutOfFuel).
    { intros arr0 nz0. pose proof (collect_fuel arr0 (seq 0 nz0) []). destruct (foldM _ (seq 0 nz0) []) as [its|e]; cbn [bind]; [|congruence].
      destruct m; [|discriminate]. destruct n; discriminate. }
    destruct f; cbn [bind]; [|apply Hk].
    match goal with |- context [entryLoop ofInt rand rd ?a ?b ?c ?d ?e ?g ?h] => pose proof (entryLoop_ends a b c d e g h) as HL; destruct (entryLoop ofInt rand rd a b c d e g h) as [[[cnz nz1] arr1]|er] end; cbn [bind].
    - unfold assert_. destruct (cnz =? nz1); cbn [bind]; [apply Hk|discriminate].
    - assert (Err er <> Err OutOfFuel) by (apply HL; destruct (good s2); lia). congruence. }
  destruct sym; [|cbn [bind]; apply Hz].
  destruct (2 * nz <=? imax)%Z; cbn [bind]; [apply Hz|discriminate].
Qed.
End Ends.

(** * Binary files *)
Lemma fread_ok {A} sz (dec : list ascii -> A) (enc : A -> list ascii) (l : list A) r :
  (forall a, length (enc a) = sz) -> (forall a, a ∈ l -> dec (enc a) = a) ->
  fread sz dec (length l) (mjoin (enc <$> l) ++ r) = (l, r).
Proof.
  intros Hl. induction l as [|a l IH]; intros Hd; [reflexivity|]. cbn [length fread].
  change (mjoin (enc <$> a :: l)) with (enc a ++ mjoin (enc <$> l)). rewrite <- app_assoc.
  destruct (Nat.leb_spec sz (length (enc a ++ mjoin (enc <$> l) ++ r))) as [_|H]; [|rewrite app_length, Hl in H; lia].
  rewrite (take_app_alt (enc a)) by (symmetry; apply Hl). rewrite (drop_app_alt (enc a)) by (symmetry; apply Hl).
  rewrite IH by (intros b Hb; apply Hd; right; exact Hb). rewrite Hd by left. reflexivity.
Qed.
Lemma fread_short {A} sz (dec : list ascii -> A) n s : length s < n * sz -> length (fst (fread sz dec n s)) < n.
Proof.
  revert s. induction n as [|n IH]; intros s H; [lia|]. cbn [fread]. destruct (Nat.leb_spec sz (length s)) as [Hs|Hs]; [|cbn; lia].
  specialize (IH (drop sz s)). rewrite drop_length in IH. specialize (IH ltac:(lia)). destruct (fread sz dec n (drop sz s)) as [l r]. cbn in IH |- *. lia.
Qed.
Lemma asIndices (l : list nat) acc : foldM (fun l z => i <- asIndex z ;; Ok (l ++ [i])) (Z.of_nat <$> l) acc = Ok (acc ++ l).
Proof.
  revert acc. induction l as [|a l IH]; intros acc; [rewrite app_nil_r; reflexivity|]. rewrite fmap_cons. cbn [foldM].
  unfold asIndex at 1. destruct (Z.leb_spec 0 (Z.of_nat a)); [|lia]. cbn [bind]. rewrite Nat2Z.id, IH, <- app_assoc. reflexivity.
Qed.
