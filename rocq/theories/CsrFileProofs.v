(** Proofs about reading a file straight into compressed rows. *)
From stdpp Require Import numbers.
From Verif Require Import IoSpec IoProofs CsrFileSpec CsrFileModel MatProofs Assemble BaseProofs.
From Verif Require Import Base Spec.
Local Open Scope list_scope.

(** * Lines *)
(** Nothing in the line that would end it. *)
Definition plain (l : text) : Prop := nlc ∉ l /\ nul ∉ l /\ length l <= 254.
Definition ending (e : text) : Prop := e = [] \/ e = [nlc].
(** The text gives these strings, one by one. *)
Inductive feed : text -> list (text * text) -> Prop :=
| feed_nil : feed [] []
| feed_nl l t ls : plain l -> feed t ls -> feed (l ++ nlc :: t) ((l, [nlc]) :: ls)
| feed_end l : plain l -> l <> [] -> feed l [(l, [])].

Lemma fgetsLoop_nl l : forall k r, nlc ∉ l -> length l < k -> fgetsLoop k (l ++ nlc :: r) = (l ++ [nlc], r).
Proof.
  induction l as [|c l IH]; intros k r Hn Hk; (destruct k as [|k]; [cbn [length] in Hk; lia|]); cbn [app fgetsLoop].
  - reflexivity.
  - apply not_elem_of_cons in Hn as [Hc Hn]. destruct (Ascii.eqb_spec c "010") as [->|_]; [destruct Hc; reflexivity|].
    cbn [length] in Hk. rewrite IH; [reflexivity|exact Hn|lia].
Qed.
Lemma fgetsLoop_end l : forall k, nlc ∉ l -> length l <= k -> fgetsLoop k l = (l, []).
Proof.
  induction l as [|c l IH]; intros k Hn Hk; [destruct k; reflexivity|]. destruct k as [|k]; [cbn [length] in Hk; lia|]. cbn [fgetsLoop].
  apply not_elem_of_cons in Hn as [Hc Hn]. destruct (Ascii.eqb_spec c "010") as [->|_]; [destruct Hc; reflexivity|].
  cbn [length] in Hk. rewrite IH; [reflexivity|exact Hn|lia].
Qed.
Lemma feed_fgets t l e ls : feed t ((l, e) :: ls) ->
  exists t', fgets t = Some (l ++ e, t') /\ cstr (l ++ e) = l ++ e /\ ending e /\ plain l /\ feed t' ls /\ length t' < length t.
Proof.
  intros H. inversion H as [|? t' ? (H1 & H2 & H3) Hf|? (H1 & H2 & H3) Hne]; subst.
  - exists t'. unfold fgets. destruct (l ++ nlc :: t') eqn:E; [destruct l; discriminate|]. rewrite <- E. rewrite fgetsLoop_nl by (assumption || lia).
    split; [reflexivity|]. split; [|split; [right; reflexivity|split; [repeat split; assumption|split; [exact Hf|rewrite app_length; cbn [length]; lia]]]].
    apply cstr_id. apply not_elem_of_app. split; [exact H2|]. intros Hi. apply elem_of_list_singleton in Hi. discriminate.
  - exists []. unfold fgets. destruct l as [|x l]; [congruence|]. rewrite fgetsLoop_end by (assumption || lia). rewrite app_nil_r.
    split; [reflexivity|]. split; [apply cstr_id, H2|]. split; [left; reflexivity|]. split; [repeat split; assumption|]. split; [constructor|cbn [length]; lia].
Qed.
Lemma feed_none t : feed t [] -> fgets t = None.
Proof. intros H. inversion H. reflexivity. Qed.
Lemma feed_length t ls : feed t ls -> length ls <= length t.
Proof. induction 1 as [|l t ls _ _ IH|l _ Hne]; [reflexivity|rewrite app_length; cbn [length]; lia|destruct l; [congruence|cbn [length]; lia]]. Qed.

Lemma feed_lines ls : Forall plain ls -> feed (lines ls) ((fun l => (l, [nlc])) <$> ls).
Proof. induction 1 as [|l ls Hl _ IH]; [constructor|]. rewrite lines_cons. cbn [fmap list_fmap]. constructor; [exact Hl|exact IH]. Qed.
Lemma lines_app a b : lines (a ++ b) = lines a ++ lines b.
Proof. induction a as [|x a IH]; [reflexivity|]. cbn [app]. rewrite !lines_cons, IH, <- app_assoc. reflexivity. Qed.
Lemma feed_text ls t : Forall plain ls -> Forall (fun l => l <> []) ls -> t = lines ls \/ t ++ [nlc] = lines ls ->
  exists fs, feed t fs /\ fst <$> fs = ls.
Proof.
  intros Hp Hne [->|E].
  - eexists. split; [apply feed_lines, Hp|]. rewrite <- list_fmap_compose. apply list_fmap_id.
  - destruct ls as [|l0 ls0]; [destruct t; discriminate|].
    destruct (@exists_last _ (l0 :: ls0) ltac:(discriminate)) as (ls & l & Els). rewrite Els in *. clear l0 ls0 Els.
    rewrite lines_app in E. change (lines [l]) with ((l ++ [nlc]) ++ []) in E. rewrite app_nil_r, app_assoc in E. apply app_inj_tail in E as [-> _].
    apply Forall_app in Hp as [Hp Hl]. apply Forall_app in Hne as [_ Hnl]. apply Forall_cons_1 in Hl as [Hl _]. apply Forall_cons_1 in Hnl as [Hnl _].
    exists (((fun l => (l, [nlc])) <$> ls) ++ [(l, [])]). split.
    + induction Hp as [|x ls Hx _ IH]; [apply feed_end; assumption|]. rewrite lines_cons, <- app_assoc. cbn [fmap list_fmap app].
      constructor; [exact Hx|exact IH].
    + rewrite fmap_app, <- list_fmap_compose. cbn [fmap list_fmap]. f_equal. apply list_fmap_id.
Qed.

(** * Head *)
Lemma occurs_nl needle l : nlc ∉ needle -> needle <> [] -> occurs needle (l ++ [nlc]) <-> occurs needle l.
Proof.
  intros Hn He. split.
  - intros (a & b & E). destruct b as [|x b].
    + rewrite app_nil_r in E. destruct (@exists_last _ needle He) as (p & y & ->). rewrite app_assoc in E. apply app_inj_tail in E as [_ <-].
      destruct Hn. apply elem_of_app. right. apply elem_of_list_singleton. reflexivity.
    + destruct (@exists_last _ (x :: b) ltac:(discriminate)) as (p & y & E2). rewrite E2 in E. rewrite !app_assoc in E. apply app_inj_tail in E as [-> _].
      exists a, p. rewrite app_assoc. reflexivity.
  - intros (a & b & ->). exists a, (b ++ [nlc]). rewrite <- !app_assoc. reflexivity.
Qed.
Definition gen_in (l : text) : bool := strstr (txt "general") l.
Lemma gen_in_nl l e : ending e -> gen_in (l ++ e) = gen_in l.
Proof.
  intros [-> | ->]; [rewrite app_nil_r; reflexivity|]. unfold gen_in. apply eq_true_iff_eq. rewrite !strstr_ok. apply occurs_nl; [|discriminate].
  vm_compute. intros H. repeat (apply elem_of_cons in H as [H|H]; [discriminate H|]). inversion H.
Qed.

Lemma headLoop_ok cs : forall fuel t size e ls line gen, (exists x l, size = x :: l /\ x <> "%"%char) ->
  feed t (cs ++ (size, e) :: ls) -> Forall (fun c => exists l, fst c = "%"%char :: l) cs -> length cs < fuel ->
  exists t', headLoop fuel line gen t = Ok (size ++ e, existsb gen_in (fst <$> cs) || gen || gen_in size, t') /\ feed t' ls.
Proof.
  induction cs as [|[c ec] cs IH]; intros fuel t size e ls line gen (x & sz & Es & Hx) Hf Hc Hfu; (destruct fuel as [|fuel]; [cbn [length] in Hfu; lia|]).
  - cbn [app] in Hf. apply feed_fgets in Hf as (t' & E1 & E2 & E3 & _ & Hf' & _). exists t'. split; [|exact Hf'].
    cbn [headLoop]. rewrite E1, E2. cbn [used bind fmap list_fmap existsb]. change (strstr (list_ascii_of_string "general")) with gen_in.
    rewrite (gen_in_nl size e E3). rewrite Es. cbn [app].
    destruct (Ascii.eqb_spec x "%") as [->|_]; [congruence|]. reflexivity.
  - cbn [app] in Hf. apply feed_fgets in Hf as (t' & E1 & E2 & E3 & _ & Hf' & _). apply Forall_cons_1 in Hc as [(l & El) Hc]. cbn [fst] in El.
    cbn [length] in Hfu. destruct (IH fuel t' size e ls (Some (c ++ ec)) (gen || gen_in c) ltac:(eauto) Hf' Hc ltac:(lia)) as (t2 & E & Hf2).
    exists t2. split; [|exact Hf2]. cbn [headLoop]. rewrite E1, E2. cbn [used bind]. change (strstr (list_ascii_of_string "general")) with gen_in.
    rewrite (gen_in_nl c ec E3). subst c. cbn [app Ascii.eqb Bool.eqb] in *. rewrite E. do 3 f_equal. cbn [fmap list_fmap existsb fst].
    destruct (existsb gen_in (fst <$> cs)), gen, (gen_in ("%"%char :: l)), (gen_in size); reflexivity.
Qed.

Lemma scan_nat k n r : (Z.of_nat n <= intmax)%Z -> noDigit r ->
  scanInts (S k) (showNat n ++ r) = (zs <- scanInts k r ;; Ok (Z.of_nat n :: zs)).
Proof.
  intros Hn Hr. pose proof (digits_showNat n r Hr) as E. destruct (showNat_cons n) as (c & l & El & Hc & _). rewrite El in E |- *. cbn [app] in *.
  cbn [scanInts]. rewrite skipSpace_no by (apply digit_not_space, Hc).
  rewrite (digit_eqb c "-") by (assumption || reflexivity). rewrite (digit_eqb c "+") by (assumption || reflexivity). cbv zeta.
  assert (exists d, digit c = Some d) as [d ->] by (unfold digit, isDigit in *; rewrite Hc; eauto). rewrite E. rewrite inInt by lia. reflexivity.
Qed.
Lemma scan_sp k t : scanInts (S k) (txt " " ++ t) = scanInts (S k) t.
Proof. reflexivity. Qed.
Lemma scan_size m n k e : (Z.of_nat m <= intmax)%Z -> (Z.of_nat n <= intmax)%Z -> (Z.of_nat k <= intmax)%Z -> ending e ->
  scanInts 3 ((showNat m ++ txt " " ++ showNat n ++ txt " " ++ showNat k) ++ e) = Ok [Z.of_nat m; Z.of_nat n; Z.of_nat k].
Proof.
  intros Hm Hn Hk He. rewrite <- !app_assoc. rewrite scan_nat by (exact Hm || reflexivity). rewrite scan_sp. rewrite scan_nat by (exact Hn || reflexivity).
  rewrite scan_sp. rewrite scan_nat; [reflexivity|exact Hk|]. destruct He as [-> | ->]; [exact I|reflexivity].
Qed.

Lemma head_ok fuel (cs : list text) m n k (ls : list text) t (fs : list (text * text)) gen : feed t fs ->
  fst <$> fs = (("%"%char ::.) <$> cs) ++ [showNat m ++ txt " " ++ showNat n ++ txt " " ++ showNat k] ++ ls ->
  length cs < fuel -> gen = existsb gen_in (("%"%char ::.) <$> cs) ->
  (Z.of_nat m <= intmax)%Z -> (Z.of_nat n <= intmax)%Z -> (Z.of_nat k <= intmax)%Z ->
  exists line t' (fe : list (text * text)), headLoop fuel None false t = Ok (line, gen, t') /\ scanInts 3 line = Ok [Z.of_nat m; Z.of_nat n; Z.of_nat k] /\
    feed t' fe /\ fst <$> fe = ls.
Proof.
  intros Hfeed Hfs Hfuel Hgen Hm Hn Hk.
  apply fmap_app_inv in Hfs as (fc & f2 & Ec & Hfs & ->). symmetry in Hfs. apply fmap_app_inv in Hfs as (f1 & fe & E1 & Ee & ->).
  destruct f1 as [|[size en] [|]]; [discriminate| |discriminate]. cbn [fmap list_fmap fst] in E1. injection E1 as E1. 
  symmetry in Ec.
  assert (Hsz0 : gen_in size = false).
  { unfold gen_in. apply not_true_is_false. intros Hs. apply (proj1 (strstr_ok _ _)) in Hs. destruct Hs as (a & b & Hab).
    assert (Hx : "g"%char ∈ size) by (rewrite Hab; apply elem_of_app; right; apply elem_of_app; left; left).
    revert Hx. rewrite <- E1. rewrite elem_of_app, elem_of_cons, elem_of_app, elem_of_cons.
    intros [Hx|[Hx|[Hx|[Hx|Hx]]]]; try discriminate Hx; revert Hx; (apply digits_notin; [apply showNat_digits|reflexivity]). }
  change (showNat m ++ txt " " ++ showNat n ++ txt " " ++ showNat k = size) in E1.
  destruct (headLoop_ok fc fuel t size en fe None false) as (t' & Eh & Hf').
  - rewrite <- E1. destruct (showNat_cons m) as (x & l & -> & Hx & _). eexists _, _. split; [reflexivity|]. apply digit_neq; [exact Hx|reflexivity].
  - exact Hfeed.
  - apply (Forall_fmap fst (fun c => exists l, c = "%"%char :: l)). rewrite Ec. apply Forall_fmap, Forall_forall. intros c _. exists c. reflexivity.
  - assert (length fc = length cs) by (rewrite <- (fmap_length fst fc), Ec, fmap_length; reflexivity). lia.
  - rewrite Ec, <- Hgen, Hsz0, !orb_false_r in Eh.
    assert (Hen : ending en).
    { clear -Hfeed. revert t Hfeed. induction fc as [|[a b] fc IH]; intros t H.
      - cbn [app] in H. apply feed_fgets in H as (? & _ & _ & H & _). exact H.
      - cbn [app] in H. apply feed_fgets in H as (? & _ & _ & _ & _ & H & _). apply (IH _ H). }
    exists (size ++ en), t', fe. split; [exact Eh|]. split; [rewrite <- E1; apply scan_size; assumption|]. split; [exact Hf'|symmetry; exact Ee].
Qed.

Section Body.
Context {V : Type} (atof : text -> V) (num : Z -> text -> V) (zero one : V) (kf : field).
Hypothesis Hatof : reads num atof.
Notation entry := (nat * nat * Z * text)%type.

Definition fits (e : entry) : Prop :=
  let '(r, c, v, fr) := e in (Z.of_nat r <= intmax)%Z /\ (Z.of_nat c <= intmax)%Z /\ is_fraction fr /\ length (entryLine kf e) <= 254.
Definition val (v : Z) (fr : text) : V := match kf with Pattern => one | _ => num v fr end.
Definition zOf (e : entry) : Z * Z * V := let '(r, c, v, fr) := e in ((Z.of_nat r - 1)%Z, (Z.of_nat c - 1)%Z, val v fr).

Lemma parseEntry_ok e en : fits e -> ending en -> parseEntry atof one (entryLine kf e ++ en) = Ok (zOf e).
Proof.
  destruct e as [[[r c] v] fr]. intros (Hr & Hc & Hf & _) He. unfold parseEntry, entryLine, zOf, val.
  set (t := match kf with Pattern => [] | _ => txt " " ++ showZ v ++ fr end).
  assert (Nen : forall x, x <> nlc -> x ∉ en).
  { intros x Hx. destruct He as [-> | ->]; [apply not_elem_of_nil|]. intros Hi. apply elem_of_list_singleton in Hi. congruence. }
  assert (Hen : noDigit en) by (destruct He as [-> | ->]; [exact I|reflexivity]).
  rewrite <- !app_assoc. change (txt " " ++ showNat c ++ t ++ en) with (" "%char :: showNat c ++ t ++ en).
  rewrite atoi_nat by (assumption || reflexivity). cbn [bind].
  rewrite strchr_app by (apply digits_notin; [apply showNat_digits|reflexivity]).
  assert (Ht : noDigit (t ++ en)) by (unfold t; destruct kf; reflexivity || exact Hen).
  rewrite (atoi_nat c _ Hc Ht). cbn [bind].
  assert (Hs : (" "%char : ascii) ∉ showNat c) by (apply digits_notin; [apply showNat_digits|reflexivity]).
  assert (G : match strchr (showNat c ++ (" "%char :: showZ v ++ fr) ++ en) with
     | Some (_ :: ch) => Ok ((Z.of_nat r - 1)%Z, (Z.of_nat c - 1)%Z, atof ch)
     | _ => Ok ((Z.of_nat r - 1)%Z, (Z.of_nat c - 1)%Z, one)
     end = Ok ((Z.of_nat r - 1)%Z, (Z.of_nat c - 1)%Z, num v fr)).
  { cbn [app]. rewrite (strchr_app _ _ Hs). rewrite <- app_assoc. rewrite (Hatof v fr en Hf He). reflexivity. }
  unfold t. destruct kf; [exact G|exact G|]. cbn [app].
  rewrite strchr_no; [reflexivity|]. apply not_elem_of_app. split; [exact Hs|apply Nen; discriminate].
Qed.
Lemma fits_plain e : fits e -> plain (entryLine kf e).
Proof.
  destruct e as [[[r c] v] fr]. intros (_ & _ & Hf & Hl). assert (fraction fr) by exact Hf.
  split; [|split; [|exact Hl]]; apply entryLine_plain; try assumption; try reflexivity; discriminate.
Qed.

Lemma cooLoop_ok fs : forall es fuel t acc arr, fst <$> fs = entryLine kf <$> es -> feed t fs -> Forall fits es -> length fs < fuel ->
  take (length acc) arr = Some <$> acc -> length acc + length es <= length arr ->
  exists arr', cooLoop atof one fuel t (length acc) arr = Ok (length acc + length es, arr') /\
    take (length (acc ++ (zOf <$> es))) arr' = Some <$> (acc ++ (zOf <$> es)) /\ length arr' = length arr.
Proof.
  induction fs as [|[l en] fs IH]; intros es fuel t acc arr Hl Hfe Hfi Hfu Ht Hlen; (destruct fuel as [|fuel]; [cbn [length] in Hfu; lia|]).
  - destruct es; [|discriminate]. cbn [cooLoop]. rewrite (feed_none t Hfe). exists arr. cbn [fmap list_fmap]. rewrite app_nil_r, Nat.add_0_r. auto.
  - destruct es as [|e es]; [discriminate|]. rewrite !fmap_cons in Hl. cbn [fst] in Hl. injection Hl as -> Hl. apply Forall_cons_1 in Hfi as [He Hfi].
    apply feed_fgets in Hfe as (t' & E1 & E2 & E3 & _ & Hf' & _). cbn [cooLoop]. rewrite E1, E2. rewrite (parseEntry_ok e en He E3), bind_Ok.
    cbn [length] in Hlen. destruct (take_set arr acc (zOf e) Ht ltac:(lia)) as [-> Ht2]. rewrite bind_Ok.
    cbn [length] in Hfu. destruct (IH es fuel t' (acc ++ [zOf e]) (<[length acc := Some (zOf e)]> arr) Hl Hf' Hfi ltac:(lia) Ht2) as (arr' & E & Ht' & Hl').
    { rewrite app_length, insert_length. cbn [length]. lia. }
    exists arr'. rewrite app_length in E. cbn [length] in E. rewrite E. rewrite insert_length in Hl'. rewrite fmap_cons.
    rewrite <- app_assoc in Ht'. cbn [app] in Ht'. split; [|split; [exact Ht'|exact Hl']]. cbn [length]. do 2 f_equal. lia.
Qed.
(** A line too many. *)
Lemma cooLoop_more fs : forall es e es' fuel t acc arr, fst <$> fs = entryLine kf <$> (es ++ e :: es') -> feed t fs -> Forall fits (es ++ e :: es') -> length fs < fuel ->
  take (length acc) arr = Some <$> acc -> length acc + length es = length arr ->
  cooLoop atof one fuel t (length acc) arr = Err OutOfBounds.
Proof.
  induction fs as [|[l en] fs IH]; intros es e es' fuel t acc arr Hl Hfe Hfi Hfu Ht Hlen; (destruct fuel as [|fuel]; [cbn [length] in Hfu; lia|]).
  - destruct es; discriminate.
  - destruct es as [|x es].
    + cbn [app] in *. rewrite !fmap_cons in Hl. cbn [fst] in Hl. injection Hl as -> Hl. apply Forall_cons_1 in Hfi as [He Hfi].
      apply feed_fgets in Hfe as (t' & E1 & E2 & E3 & _ & Hf' & _). cbn [cooLoop]. rewrite E1, E2. rewrite (parseEntry_ok e en He E3), bind_Ok.
      unfold set_. destruct (Nat.ltb_spec (length acc) (length arr)) as [H|H]; [cbn [length] in Hlen; lia|reflexivity].
    + cbn [app] in *. rewrite !fmap_cons in Hl. cbn [fst] in Hl. injection Hl as -> Hl. apply Forall_cons_1 in Hfi as [He Hfi].
      apply feed_fgets in Hfe as (t' & E1 & E2 & E3 & _ & Hf' & _). cbn [cooLoop]. rewrite E1, E2. rewrite (parseEntry_ok x en He E3), bind_Ok.
      cbn [length] in Hlen, Hfu. destruct (take_set arr acc (zOf x) Ht ltac:(lia)) as [-> Ht2]. rewrite bind_Ok.
      rewrite <- (IH es e es' fuel t' (acc ++ [zOf x]) (<[length acc := Some (zOf x)]> arr) Hl Hf' Hfi ltac:(lia) Ht2).
      * rewrite app_length. reflexivity.
      * rewrite app_length, insert_length. cbn [length]. lia.
Qed.

(** * Compression *)
Definition zt (x : nat * nat * V) : Z * Z * V := (Z.of_nat (fst (fst x)), Z.of_nat (snd (fst x)), snd x).
Definition spread (gen : bool) (x : nat * nat * V) : list (nat * (nat * V)) :=
  let '(r, c, v) := x in if negb (c =? r) && negb gen then [(r, (c, v)); (c, (r, v))] else [(r, (c, v))].
Definition items (gen : bool) (l : list (nat * nat * V)) : list (nat * (nat * V)) := mjoin (spread gen <$> l).
Lemma items_cons gen x l : items gen (x :: l) = spread gen x ++ items gen l.
Proof. reflexivity. Qed.
Lemma items_length gen l : length l <= length (items gen l) <= 2 * length l.
Proof.
  induction l as [|[[r c] v] l IH]; [cbn; lia|]. rewrite items_cons, app_length. cbn [length]. unfold spread. destruct (_ && _); cbn [length]; lia.
Qed.
Lemma zeqb_nat a b : Z.eqb (Z.of_nat a) (Z.of_nat b) = (a =? b).
Proof. destruct (Z.eqb_spec (Z.of_nat a) (Z.of_nat b)), (Nat.eqb_spec a b); try reflexivity; lia. Qed.
Lemma asIndex_nat a : asIndex (Z.of_nat a) = Ok a.
Proof. unfold asIndex. destruct (Z.leb_spec 0 (Z.of_nat a)); [rewrite Nat2Z.id; reflexivity|lia]. Qed.

Lemma count_ok gen l n : forall f nz, Forall (fun x => fst x < n) (items gen l) ->
  (Z.of_nat (nz + (length (items gen l) - length l)) <= intmax)%Z ->
  foldM (fun s x => countEntry gen (zt x) s) l (f <$> seq 0 n, nz) =
    Ok ((fun i => f i + cnt (fst <$> items gen l) i) <$> seq 0 n, nz + (length (items gen l) - length l)).
Proof.
  induction l as [|[[r c] v] l IH]; intros f nz Hall Hz.
  - cbn [foldM]. do 2 f_equal; [|cbn; lia]. apply list_fmap_ext. intros. unfold items. cbn [fmap list_fmap mjoin list_join]. rewrite cnt_nil. lia.
  - rewrite items_cons in Hall. apply Forall_app in Hall as [Hs Hall]. pose proof (items_length gen l) as Hil.
    rewrite foldM_cons. unfold countEntry at 1. unfold zt at 1. cbn [fst snd]. rewrite asIndex_nat, bind_Ok, zeqb_nat.
    rewrite items_cons in Hz |- *. rewrite app_length in Hz |- *. cbn [length] in Hz |- *. unfold spread in *. destruct (negb (c =? r) && negb gen).
    + cbn [length app] in *. apply Forall_cons_1 in Hs as [Hr Hs]. apply Forall_cons_1 in Hs as [Hc _]. cbn [fst] in Hr, Hc.
      rewrite bump_ok by exact Hr. rewrite bind_Ok, asIndex_nat, bind_Ok. rewrite bump_ok by exact Hc. rewrite bind_Ok.
      destruct (Z.leb_spec (Z.of_nat nz + 1) 2147483647) as [H|H]; [|unfold intmax in Hz; lia]. rewrite bind_Ok.
      rewrite IH; [|exact Hall|lia]. do 2 f_equal; try lia; apply list_fmap_ext; intros; rewrite !fmap_cons, !cnt_cons; cbn [fst]; lia.
    + cbn [length app] in *. apply Forall_cons_1 in Hs as [Hr _]. cbn [fst] in Hr. rewrite bump_ok by exact Hr. rewrite !bind_Ok.
      rewrite IH; [|exact Hall|lia]. do 2 f_equal; try lia; apply list_fmap_ext; intros; rewrite !fmap_cons, !cnt_cons; cbn [fst]; lia.
Qed.

Lemma rowPointers_ok f n (rp : list nat) : n + 1 <= length rp ->
  exists rp', rowPointers (f <$> seq 0 n) n rp = Ok rp' /\ take (n + 1) rp' = psum f <$> seq 0 (n + 1).
Proof.
  intros Hl. unfold rowPointers.
  destruct (for_inv (fun k (s : list nat * nat) => length (fst s) = length rp /\ snd s = psum f k /\ forall i, i < k -> fst s !! i = Some (psum f i))
    (fun i '(rp, offset) => rp <- set_ rp i offset ;; x <- get (f <$> seq 0 n) i ;; Ok (rp, offset + x)) 0 n (rp, 0)) as ([rp1 off] & -> & H1 & H2 & H3).
  - lia.
  - cbn [fst snd]. split; [reflexivity|]. split; [reflexivity|]. intros; lia.
  - intros i [rp1 off] Hi (H1 & H2 & H3). cbn [fst snd] in *. rewrite set_Ok by lia. rewrite bind_Ok.
    rewrite (get_Some _ _ (f i)) by (apply seq_fmap_lookup; lia). rewrite bind_Ok. eexists. split; [reflexivity|]. cbn [fst snd].
    rewrite insert_length. split; [exact H1|]. split; [rewrite Nat.add_1_r, psum_S; lia|]. intros j Hj. destruct (decide (j = i)) as [->|Hne].
    + rewrite list_lookup_insert by lia. rewrite H2. reflexivity.
    + rewrite list_lookup_insert_ne by lia. apply H3. lia.
  - rewrite bind_Ok. cbn [fst snd] in *. rewrite set_Ok by lia. eexists. split; [reflexivity|].
    apply list_seq_ext; [rewrite take_length, insert_length; lia|]. intros i Hi. rewrite lookup_take by lia. destruct (decide (i = n)) as [->|Hne].
    + rewrite list_lookup_insert by lia. rewrite H2. reflexivity.
    + rewrite list_lookup_insert_ne by lia. apply H3. lia.
Qed.

Lemma place_fold (its : list (nat * (nat * V))) n rp (ids0 : list nat) (vals0 : list V) : Forall (fun x => fst x < n) its ->
  (forall i, i < n -> rp !! i = Some (pre (bucket its) i)) -> length its <= length ids0 -> length its <= length vals0 ->
  exists each' ids vals, foldM (fun s x => placeAt rp (fst x) (fst (snd x)) (snd (snd x)) s) its (replicate n 0, ids0, vals0) = Ok (each', ids, vals) /\
    length ids = length ids0 /\ length vals = length vals0 /\
    take (length its) ids = fst <$> rowsOf (bucket its) 0 n /\ take (length its) vals = snd <$> rowsOf (bucket its) 0 n.
Proof.
  intros Hall Hrp Hi0 Hv0. set (B := bucket its).
  destruct (foldM_inv (fun done (s : list nat * list nat * list V) =>
      fst (fst s) = (fun i => length (bucket done i)) <$> seq 0 n /\ length (snd (fst s)) = length ids0 /\ length (snd s) = length vals0 /\
      forall i k, i < n -> k < length (bucket done i) -> snd (fst s) !! (pre B i + k) = fst <$> bucket done i !! k /\
        snd s !! (pre B i + k) = snd <$> bucket done i !! k)
    (fun s x => placeAt rp (fst x) (fst (snd x)) (snd (snd x)) s) its (replicate n 0, ids0, vals0)) as ([[each ids] vals] & Hf & Hw & Hl1 & Hl2 & Hk).
  - cbn [fst snd]. split; [apply replicate_seq|]. split; [reflexivity|]. split; [reflexivity|]. intros i k _ Hk. exfalso. cbn in Hk. lia.
  - intros done [k [c v]] rest [[each ids] vals] Heq (Hw & Hl1 & Hl2 & Hk). cbn [fst snd] in Hw, Hl1, Hl2, Hk |- *. subst each.
    assert (Hkn : k < n) by (rewrite Heq, Forall_app, Forall_cons in Hall; tauto).
    assert (Hb : forall i, length (B i) = length (bucket done i) + (if decide (k = i) then 1 else 0) + length (bucket rest i)).
    { intros i. unfold B. rewrite Heq. replace (done ++ (k, (c, v)) :: rest) with (done ++ [(k, (c, v))] ++ rest) by reflexivity.
      rewrite !bucket_app, !app_length, bucket_one. destruct (decide (k = i)); simpl; lia. }
    assert (Htot : pre B n = length its) by (apply pre_total, Hall).
    assert (Hlt : pre B k + length (bucket done k) < length its).
    { rewrite <- Htot. pose proof (pre_le B (S k) n ltac:(lia)). rewrite pre_S, (Hb k) in H. rewrite decide_True in H by reflexivity. lia. }
    unfold placeAt. rewrite (get_Some _ _ _ (Hrp k Hkn)), bind_Ok. fold B. rewrite (get_Some _ _ (length (bucket done k))) by (rewrite seq_fmap_lookup by exact Hkn; reflexivity).
    rewrite bind_Ok, set_Ok by lia. rewrite bind_Ok, set_Ok by lia. rewrite bind_Ok, set_Ok by (rewrite seq_fmap_length; exact Hkn). rewrite bind_Ok.
    eexists. split; [reflexivity|]. cbn [fst snd]. split; [|split; [rewrite insert_length; exact Hl1|split; [rewrite insert_length; exact Hl2|]]].
    + rewrite <- (seq_fmap_insert (fun i => length (bucket done i)) (fun i => length (bucket (done ++ [(k, (c, v))]) i)) n k Hkn).
      * rewrite bucket_app, app_length, bucket_one, decide_True by reflexivity. reflexivity.
      * intros j Hj Hne. rewrite bucket_app, app_length, bucket_one, decide_False by congruence. simpl. lia.
    + intros i j Hi Hj. rewrite bucket_app, app_length, bucket_one in Hj. rewrite bucket_app, bucket_one.
      destruct (decide (k = i)) as [<-|Hne].
      * simpl in Hj. destruct (decide (j = length (bucket done k))) as [->|Hnj].
        -- rewrite !list_lookup_insert by lia. rewrite lookup_app_r, Nat.sub_diag by lia. split; reflexivity.
        -- rewrite !list_lookup_insert_ne by lia. rewrite lookup_app_l by lia. apply Hk; lia.
      * simpl in Hj. rewrite app_nil_r.
        assert (pre B k + length (bucket done k) <> pre B i + j).
        { pose proof (Hb i) as Hbi. pose proof (Hb k) as Hbk. rewrite decide_True in Hbk by reflexivity.
          destruct (Nat.lt_ge_cases i k).
          - pose proof (pre_le B (S i) k ltac:(lia)) as Hp. rewrite pre_S in Hp. lia.
          - pose proof (pre_le B (S k) i ltac:(lia)) as Hp. rewrite pre_S in Hp. lia. }
        rewrite !list_lookup_insert_ne by assumption. apply Hk; lia.
  - exists each, ids, vals. cbn [fst snd] in *. split; [exact Hf|]. split; [exact Hl1|]. split; [exact Hl2|].
    assert (Htot : pre B n = length its) by (apply pre_total, Hall).
    assert (HL : length (rowsOf B 0 n) = length its) by (rewrite rowsOf_length, pre_0, Htot by lia; lia).
    assert (G : forall p, p < length its -> ids !! p = fst <$> rowsOf B 0 n !! p /\ vals !! p = snd <$> rowsOf B 0 n !! p).
    { intros p Hp. assert (Hex : exists i, i < n /\ pre B i <= p < pre B (S i)).
      { rewrite <- Htot in Hp. clear -Hp. induction n as [|n IH]; [rewrite pre_0 in Hp; lia|].
        destruct (Nat.lt_ge_cases p (pre B n)) as [H|H]; [destruct (IH H) as (i & Hi & ?); exists i; split; [lia|assumption]|exists n; lia]. }
      destruct Hex as (i & Hi & Hpi). rewrite (rowsOf_lookup B i (S i) n p) by lia.
      rewrite rowsOf_S, rowsOf_nil by lia. cbn [app]. rewrite pre_S in Hpi. specialize (Hk i (p - pre B i) Hi).
      replace (pre B i + (p - pre B i)) with p in Hk by lia. apply Hk. unfold B in Hpi |- *. lia. }
    split; apply list_eq; intros p; (destruct (Nat.lt_ge_cases p (length its)) as [Hp|Hp];
      [rewrite lookup_take by exact Hp; rewrite list_lookup_fmap; apply G, Hp
      |rewrite !lookup_ge_None_2; [reflexivity|rewrite fmap_length; lia|rewrite take_length; lia]]).
Qed.

Lemma fill_items gen rp l : forall s, foldM (fun s x => fillEntry gen rp (zt x) s) l s =
  foldM (fun s x => placeAt rp (fst x) (fst (snd x)) (snd (snd x)) s) (items gen l) s.
Proof.
  induction l as [|[[r c] v] l IH]; intros s; [reflexivity|]. rewrite items_cons, foldM_cons, foldM_app.
  assert (fillEntry gen rp (zt (r, c, v)) s = foldM (fun s x => placeAt rp (fst x) (fst (snd x)) (snd (snd x)) s) (spread gen (r, c, v)) s) as ->.
  { unfold fillEntry, zt, spread. cbn [fst snd]. rewrite !asIndex_nat, !bind_Ok, zeqb_nat. destruct (negb (c =? r) && negb gen); cbn [foldM fst snd].
    - destruct (placeAt rp r c v s) as [s1|]; [|reflexivity]. cbn [bind]. destruct (placeAt rp c r v s1); reflexivity.
    - destruct (placeAt rp r c v s); reflexivity. }
  destruct (foldM _ (spread gen (r, c, v)) s) as [s1|]; [|reflexivity]. cbn [bind]. apply IH.
Qed.

Definition nOf (e : entry) : nat * nat * V := let '(r, c, v, fr) := e in (r - 1, c - 1, val v fr).
Lemma zt_nOf e : (let '(r, c, _, _) := e in 1 <= r /\ 1 <= c) -> zOf e = zt (nOf e).
Proof. destruct e as [[[r c] v] fr]. intros [Hr Hc]. unfold zOf, zt, nOf. cbn [fst snd]. repeat f_equal; lia. Qed.

(** ** The whole constructor: [k] entries are declared, [es] are there. *)
Lemma csrOfFile_ok szI szV fuel cs m n k es t fs gen : szI = 4 -> 1 <= szV ->
  feed t fs -> fst <$> fs = (("%"%char ::.) <$> cs) ++ [showNat m ++ txt " " ++ showNat n ++ txt " " ++ showNat k] ++ (entryLine kf <$> es) ->
  length cs < fuel -> gen = existsb gen_in (("%"%char ::.) <$> cs) ->
  (Z.of_nat m + 1 <= intmax)%Z -> (Z.of_nat n <= intmax)%Z -> Forall fits es -> Forall (fun e => let '(r, c, _, _) := e in 1 <= r <= m /\ 1 <= c <= n) es ->
  length es <= k -> (Z.of_nat (k + length es) <= intmax)%Z -> (gen = false -> m = n) ->
  exists ids vals, csrOfFile atof zero one szI szV fuel (Some t) =
    Ok (mkCsr m n (k + (length (items gen (nOf <$> es)) - length es)) (pre (bucket (items gen (nOf <$> es))) <$> seq 0 (m + 1)) ids vals) /\
    take (length (items gen (nOf <$> es))) ids = fst <$> rowsOf (bucket (items gen (nOf <$> es))) 0 m /\
    take (length (items gen (nOf <$> es))) vals = snd <$> rowsOf (bucket (items gen (nOf <$> es))) 0 m /\
    length ids = k + (length (items gen (nOf <$> es)) - length es) /\ length vals = k + (length (items gen (nOf <$> es)) - length es).
Proof.
  intros HszI HszV Hfeed Hfs Hfuel Hgen Hm Hn Hfits Hrange Hk Hk2 Hsq.
  unfold csrOfFile. destruct (head_ok fuel cs m n k (entryLine kf <$> es) t fs gen Hfeed Hfs Hfuel Hgen) as (line & t' & fe & Eh & Es & Hf' & Ee); [lia..|].
  rewrite Eh, bind_Ok. cbn beta iota. rewrite Es.
  rewrite bind_Ok. cbn [lookup list_lookup]. unfold storedInt. cbn [used]. rewrite HszI. cbn [bind Nat.eqb].
    assert (Hsize : forall a, asSize (Z.of_nat a) = Ok a) by (intros a; apply asIndex_nat). rewrite Hsize, bind_Ok.
    destruct (cooLoop_ok fe es (length t' + 1) t' [] (replicate k None)) as (coo & Ecoo & Hcoo & _).
    + exact Ee.
    + exact Hf'.
    + exact Hfits.
    + pose proof (feed_length t' fe Hf'). lia.
    + reflexivity.
    + rewrite replicate_length. cbn [length]. lia.
    + cbn [length app Nat.add] in Ecoo, Hcoo. rewrite Ecoo, bind_Ok. cbn beta iota. rewrite Hsize, bind_Ok.
      set (l := nOf <$> es) in *. set (its := items gen l) in *.
      assert (Hzl : zOf <$> es = zt <$> l).
      { unfold l. rewrite <- list_fmap_compose. apply list_fmap_ext. intros i e He. apply zt_nOf. apply elem_of_list_lookup_2 in He.
        rewrite Forall_forall in Hrange. specialize (Hrange e He). destruct e as [[[r c] v] fr]. lia. }
      assert (Hll : length l = length es) by apply fmap_length.
      assert (Hkeys : Forall (fun x => fst x < m) its).
      { unfold its, items, l. apply Forall_forall. intros x Hx. apply elem_of_list_join in Hx as (y & Hx & Hy). apply elem_of_list_fmap in Hy as (z & -> & Hz).
        apply elem_of_list_fmap in Hz as (e & -> & He). rewrite Forall_forall in Hrange. specialize (Hrange e He). destruct e as [[[r c] v] fr].
        unfold nOf, spread in Hx. destruct gen.
        - rewrite andb_false_r in Hx. apply elem_of_list_singleton in Hx as ->. cbn [fst]. lia.
        - specialize (Hsq eq_refl). destruct (negb _ && _); rewrite ?elem_of_cons, ?elem_of_nil in Hx; (destruct Hx as [->|Hx]; [cbn [fst]; lia|]).
          + destruct Hx as [->|[]]. cbn [fst]. lia.
          + destruct Hx. }
      assert (HgetI : forall i x, l !! i = Some x -> getI coo i = Ok (zt x)).
      { intros i x Hi. unfold getI. assert (coo !! i = Some (Some (zt x))) as ->; [|reflexivity].
        assert (i < length l) by (eapply lookup_lt_Some; exact Hi).
        rewrite <- (lookup_take coo (length (zOf <$> es))) by (rewrite fmap_length; lia). rewrite Hcoo, Hzl, !list_lookup_fmap, Hi. reflexivity. }
      pose proof (items_length gen l) as Hil. fold its in Hil.
      rewrite (for_foldM l _ (fun s x => countEntry gen (zt x) s)) by (first [lia|intros i x s _ Hi; rewrite (HgetI i x Hi); reflexivity]).
      rewrite Nat.sub_0_r, drop_0, take_ge by lia.
      rewrite replicate_seq. rewrite count_ok; [|exact Hkeys|fold its; lia]. fold its. rewrite bind_Ok. cbn beta iota.
      destruct (Z.leb_spec (Z.of_nat m + 1) 2147483647) as [_|H]; [|unfold intmax in Hm; lia]. rewrite bind_Ok.
      rewrite (list_fmap_ext (fun i => 0 + cnt (fst <$> its) i) (cnt (fst <$> its)) (seq 0 m)) by (intros; reflexivity).
      destruct (rowPointers_ok (cnt (fst <$> its)) m (replicate (4 * (m + 1)) 0)) as (rp & Erp & Hrp); [rewrite replicate_length; lia|].
      rewrite Erp, bind_Ok.
      rewrite (list_fmap_ext (psum (cnt (fst <$> its))) (pre (bucket its)) (seq 0 (m + 1))) in Hrp by (intros; apply psum_pre).
      rewrite (for_foldM l _ (fun s x => fillEntry gen rp (zt x) s)) by (first [lia|intros i x s _ Hi; rewrite (HgetI i x Hi); reflexivity]).
      rewrite Nat.sub_0_r, drop_0, take_ge by lia. rewrite fill_items. fold its. rewrite <- replicate_seq.
      destruct (place_fold its m rp (replicate (4 * (k + (length its - length l))) 0) (replicate (szV * (k + (length its - length l))) zero) Hkeys) as
        (each & ids & vals & Ef & Li & Lv & Ti & Tv).
      * intros i Hi. rewrite <- (lookup_take rp (m + 1)) by lia. rewrite Hrp. apply seq_fmap_lookup. lia.
      * rewrite replicate_length. lia.
      * rewrite replicate_length. nia.
      * rewrite Ef, bind_Ok. cbn beta iota. rewrite Hsize, bind_Ok. rewrite Hrp, Hll.
        rewrite replicate_length, Hll in Li. rewrite replicate_length, Hll in Lv. rewrite Hll in Hil.
        exists (take (k + (length its - length es)) ids), (take (k + (length its - length es)) vals). split; [reflexivity|].
        rewrite !take_take, !Nat.min_l by lia. split; [exact Ti|]. split; [exact Tv|]. rewrite !take_length. split; [lia|nia].
Qed.
End Body.
