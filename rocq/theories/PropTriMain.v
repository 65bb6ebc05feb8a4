(** C73: TriCntAll.cpp from the text of the file to the printed lines. *)
From Coq Require Import NArith ZArith Ascii String.
From stdpp Require Import numbers list_numbers sorting.
From Verif Require Import BaseProofs McaProofs ConcProofs GraphCalls DriverStatements PolyModel PropPoly BlockCalls Conc Assemble MatSpec MatStatements PropMat GraphSpec GraphModel TriProofs IndexModel PropIndex ReportModel PropReport IoSpec IoModel PropIo AlgModel DriverModel
  TriAllModel TriAllSpec TriAllProofs TriAllCalls TriAllCount PropTriAll RunSpec RunProofs PropRun MainModel MainSpec MainCalls PropMain TriMainModel TriMainSpec TriMainCalls TriMainLoops.
From Verif Require Import Base Spec.
Local Open Scope nat_scope.

Lemma mm_rows_small f : mm_wf f -> (N.of_nat (mm_rows f) < 2 ^ 31)%N.
Proof. intros (_ & _ & H & _). unfold intmax in H. lia. Qed.

(** The lower triangle that the file gives. *)
Lemma tri_input (ltV : Z -> Z -> Prop) sortP sortT stdsort itmax f t n p :
  std_sort sortP -> std_sort sortT -> sort_contract ltV stdsort -> (2 ^ 63 - 1 <= Z.of_nat itmax)%Z ->
  mm_wf f -> mm_symm f <> SymSkew -> values_integral f -> mm_rows f = n -> mm_cols f = n -> file_text f t -> (exists i j, linked (means f) i j) -> by_degree (means f) n p ->
  exists X L T, (forall r, readASCII ofInt64 0%Z stdsort (Z.of_nat itmax) (Some t) r <-> r = Ok X) /\
    preprocessInput_ends 0%Z 1%Z sortP sortT stdsort X L /\ (forall L', preprocessInput_ends 0%Z 1%Z sortP sortT stdsort X L' -> L' = L) /\ csrOfCsc 0%Z L = Ok T /\
    wf_csc X /\ c_rows X = n /\ c_cols X = n /\ permutes n p /\ (forall i j, linked (means f) i j <-> joined X i j) /\
    (forall i j, edge T i j <-> j < i /\ exists a b, joined X a b /\ i = p a /\ j = p b) /\
    GraphSpec.good n T /\ wf_csc L /\ c_rows L = n /\ c_cols L = n /\ same_matrix T L /\ sorted_cols L /\ 1 <= n /\ allOnes T /\ nnz T <> 0 /\ (N.of_nat n < 2 ^ 31)%N.
Proof.
  intros HsP HsT Hss Hi Hwf Hsk Hint Hr Hc Ht Hlk [Pp Rp].
  destruct (C53_read_csc_partial Z ofInt64 ltV 0%Z stdsort Hss (Z.of_nat itmax) f t) as (X & HX & HwX & HrX & HcX & HT & _); try assumption; [unfold intmax; lia|congruence|].
  rewrite Hr in HrX. rewrite Hc in HcX. pose proof (linked_joined X (means f) ofInt64 HwX HT) as HLJ.
  assert (HJ : exists i j, joined X i j) by (destruct Hlk as (i & j & H); exists i, j; apply HLJ, H).
  destruct (pre_ok 0%Z 1%Z sortP sortT HsP HsT ltV stdsort Hss X n HwX HrX HcX HJ) as (L & H1 & H2 & H3 & H4 & H5 & H6 & H7).
  destruct (renum_ok sortP HsP X) as (Hp & Hrk & _). rewrite HrX in Hp, Hrk.
  assert (EP : forall i, i < n -> p i = renum sortP X i).
  { apply (rank_unique (row_degree X)); [exact Pp| |exact Hp|intros i j [Hij Hj]; apply Hrk; assumption].
    intros i j Hij. rewrite <- !(degree_row X (means f) ofInt64 HwX HT). apply Rp, Hij. }
  destruct (lower_csr 0%Z 1%Z X L n (renum sortP X) H3 H4 H5 H6 H7) as (T & ET & HG & Hsm & Hones & HE).
  assert (HE' : forall i j, edge T i j <-> j < i /\ exists a b, joined X a b /\ i = p a /\ j = p b).
  { intros i j. rewrite HE. split; intros (Hlt & a & b & J & Ea & Eb); (split; [exact Hlt|]); exists a, b; destruct (joined_range X n a b HwX HrX HcX J) as [Ra Rb]; (split; [exact J|]);
      [rewrite !EP by assumption|rewrite <- !EP by assumption]; auto. }
  exists X, L, T. do 11 (split; [assumption|]). do 2 (split; [assumption|]). do 3 (split; [assumption|]). destruct HJ as (i & j & J). pose proof (joined_range X n i j HwX HrX HcX J) as [Ri Rj].
  split; [lia|]. split; [exact Hones|]. split; [|rewrite <- Hr; apply mm_rows_small, Hwf].
  assert (Hlo : exists i j, edge T i j).
  { destruct (Nat.lt_total (p j) (p i)) as [Hlt|[He|Hlt]].
    - exists (p i), (p j). apply HE'. split; [exact Hlt|]. exists i, j. auto.
    - exfalso. apply (proj1 J), (proj2 Pp); auto.
    - exists (p j), (p i). apply HE'. split; [exact Hlt|]. exists j, i. split; [|auto]. destruct J as [? ?]; split; [congruence|tauto]. }
  destruct Hlo as (i' & j' & Hi' & Hin). intros Hz. destruct HG as (HwT & _). unfold row_cols in Hin. apply elem_of_list_fmap in Hin as (e & _ & Hin).
  pose proof (wf_assemble T HwT) as Ea. pose proof (wf_values T HwT) as Ev. rewrite Hz in Ev. apply nil_length_inv in Ev. rewrite Ea in Ev. cbn [assemble values] in Ev. apply fmap_nil_inv in Ev.
  assert (Hin2 : e ∈ rowsOf (row_entries T) 0 (rows T)) by (unfold rowsOf; apply elem_of_list_join; eexists; split; [exact Hin|]; apply elem_of_list_fmap; exists i'; split; [reflexivity|]; apply elem_of_seq; lia).
  rewrite Ev in Hin2. inversion Hin2.
Qed.

Lemma filter_modes w (labs : list text) bs :
  fst <$> filter (fun p : text * bench => w ∈ b_modes (snd p)) (zip labs bs) = fst <$> filter (fun q : text * list text => w ∈ snd q) (zip labs (b_modes <$> bs)).
Proof.
  revert bs. induction labs as [|lab labs IH]; intros [|b bs]; [reflexivity..|]. rewrite fmap_cons. change (zip (lab :: labs) (b :: bs)) with ((lab, b) :: zip labs bs).
  change (zip (lab :: labs) (b_modes b :: (b_modes <$> bs))) with ((lab, b_modes b) :: zip labs (b_modes <$> bs)). rewrite !filter_cons. cbn [snd].
  destruct (decide (w ∈ b_modes b)); rewrite ?fmap_cons, ?IH; reflexivity.
Qed.
Definition tri_mlist : list (list text) :=
  replicate 5 [txt "inner"; txt "dot"; txt "all"] ++ replicate 9 [txt "msa"; txt "all"] ++ replicate 4 [txt "hash"; txt "all"] ++ replicate 18 [txt "heap"; txt "all"] ++
  [[txt "intersect"; txt "all"]] ++ replicate 8 [txt "all1p"] ++ replicate 7 [txt "all2p"].
Lemma tri_bmodes stdsortK itmax T L : b_modes <$> triBenches stdsortK itmax T L = tri_mlist.
Proof. reflexivity. Qed.
Lemma tri_mlist_in w l : l ∈ tri_mlist -> w ∈ l -> w ∈ [txt "all1p"] ++ (fst <$> tri_modes).
Proof.
  intros Hl Hw. assert (H : Forall (fun l => Forall (fun w => w ∈ [txt "all1p"] ++ (fst <$> tri_modes)) l) tri_mlist) by (apply (bool_decide_unpack _); vm_compute; exact I).
  rewrite Forall_forall in H. specialize (H l Hl). rewrite Forall_forall in H. apply H, Hw.
Qed.
Lemma tri_filter w labels : (w, labels) ∈ tri_modes -> fst <$> filter (fun q : text * list text => w ∈ snd q) (zip tri_labels_all tri_mlist) = labels.
Proof.
  intros Hin. assert (H : Forall (fun q => fst <$> filter (fun x : text * list text => fst q ∈ snd x) (zip tri_labels_all tri_mlist) = snd q) tri_modes) by (apply (bool_decide_unpack _); vm_compute; exact I).
  rewrite Forall_forall in H. apply (H (w, labels) Hin).
Qed.

Definition tri_known : list text := [txt "inner"; txt "dot"; txt "msa"; txt "hash"; txt "heap"; txt "intersect"; txt "all"; txt "all1p"; txt "all2p"].
Lemma sub_dec (l k : list text) : bool_decide (Forall (fun w => w ∈ k) l) = true -> forall w, w ∈ l -> w ∈ k.
Proof. intros H. apply bool_decide_eq_true_1 in H. rewrite Forall_forall in H. exact H. Qed.

(** There is an order of the degrees. *)
Lemma rank_exists (d : nat -> nat) n : exists p, permutes n p /\ forall i j, i < j < n -> d (p j) < d (p i) \/ (d (p j) = d (p i) /\ p j < p i).
Proof.
  set (A := mkCsc n n 0 [] (mjoin ((fun i => replicate (d i) i) <$> seq 0 n)) [] : csc Z).
  assert (HD : forall i, i < n -> row_degree A i = d i).
  { intros i Hi. unfold row_degree. cbn [A rowids].
    assert (G : forall k m, length (filter (fun r => r = i) (mjoin ((fun i => replicate (d i) i) <$> seq k m))) = if (k <=? i) && (i <? k + m) then d i else 0).
    { intros k m. revert k. induction m as [|m IH]; intros k; [rewrite Nat.add_0_r; change (length _) with 0; destruct (Nat.leb_spec k i), (Nat.ltb_spec i k); cbn [andb]; lia|].
      cbn [seq]. rewrite fmap_cons, mjoin_cons, filter_app, app_length, IH.
      assert (Hr : length (filter (fun r => r = i) (replicate (d k) k)) = if k =? i then d k else 0).
      { clear. induction (d k) as [|x IHx]; [destruct (k =? i); reflexivity|]. cbn [replicate]. rewrite filter_cons. destruct (decide (k = i)) as [->|Hne].
        - rewrite Nat.eqb_refl in *. cbn [length]. rewrite IHx. reflexivity.
        - rewrite IHx. rewrite (proj2 (Nat.eqb_neq k i) Hne). reflexivity. }
      rewrite Hr. clear. destruct (Nat.eqb_spec k i) as [E|E].
      - subst k. rewrite (proj2 (Nat.leb_gt (S i) i)), Nat.leb_refl, (proj2 (Nat.ltb_lt i (i + S m))) by lia. cbn [andb]. lia.
      - replace (S k + m) with (k + S m) by lia. destruct (Nat.leb_spec (S k) i), (Nat.leb_spec k i); try lia; cbn [andb]; lia. }
    rewrite G. destruct (Nat.leb_spec 0 i), (Nat.ltb_spec i (0 + n)); cbn [andb]; lia. }
  destruct (renum_ok (@isort _) isort_std A) as (Hp & Hrk & _). cbn [A c_rows] in Hp, Hrk. exists (renum (@isort _) A). split; [exact Hp|].
  intros i j [Hij Hj]. specialize (Hrk i j Hij Hj). pose proof (proj1 Hp i ltac:(lia)). pose proof (proj1 Hp j Hj). rewrite !HD in Hrk by assumption. exact Hrk.
Qed.

(** For every file of a square matrix with two joined vertices, any settings whose mode is not all1p, and any number of
    threads, the program ends in every execution and prints as many times as there are outer iterations the lines of
    the mode.  Every line has the number of threads, the number of edges that close a triangle whose third vertex lies
    between in the order of the degrees, and the number of triangles modulo 2^64, except that the line of HashIntersect
    has the number of these edges there too.  Nothing is left in memory if there is a triangle and at most one warm-up
    iteration.  The modes with products over hash tables and dense rows need fewer than 2^17 - 1 rows, the modes
    intersect and all a triangle. *)
Theorem C73_report_partial :
  forall pick null0 (ltV : Z -> Z -> Prop) sortP sortT stdsort stdsortK itmax f t n p ts es s tnum h,
  (forall h, h !! pick h = None) -> std_sort sortP -> std_sort sortT -> sort_contract ltV stdsort -> sort_contract (fun _ _ => False) stdsortK ->
  (2 ^ 63 - 1 <= Z.of_nat itmax)%Z ->
  mm_wf f -> mm_symm f <> SymSkew -> values_integral f -> mm_rows f = n -> mm_cols f = n -> file_text f t ->
  (exists i j, linked (means f) i j) -> by_degree (means f) n p -> file_triangles (means f) ts -> closing_edges (means f) p es ->
  1 <= tnum -> (Z.of_nat tnum <= intmax)%Z ->
  (let inner := default 1 (s_inner s) in let warmup := default (if inner =? 1 then 0 else 1) (s_warmup s) in
     (0 < inner \/ warmup = 1) /\ (N.of_nat warmup <= 2147483647)%N /\ (N.of_nat inner <= 2147483647)%N) ->
  (forall m w, s_mode s = Some m -> w ∈ [txt "inner"; txt "dot"; txt "msa"; txt "hash"; txt "intersect"; txt "all"] -> spells m w -> (N.of_nat (n + 1) < 2 ^ 17)%N) ->
  (forall m w, s_mode s = Some m -> w ∈ [txt "intersect"; txt "all"] -> spells m w -> ts <> []) ->
  (forall m, s_mode s = Some m -> ~ spells m (txt "all1p")) ->
  (exists r, triMain pick null0 sortP sortT stdsort stdsortK itmax (Some t) s tnum h r) /\
  forall r, triMain pick null0 sortP sortT stdsort stdsortK itmax (Some t) s tnum h r ->
  exists h' out, r = Ok (h', out) /\ h ⊆ h' /\
    (ts <> [] -> default (if default 1 (s_inner s) =? 1 then 0 else 1) (s_warmup s) <= 1 -> h' = h) /\
    (forall m w labels, s_mode s = Some m -> (w, labels) ∈ tri_modes -> spells m w -> fst <$> out = mjoin (replicate (default 1 (s_outer s)) labels)) /\
    ((forall m w, s_mode s = Some m -> w ∈ fst <$> tri_modes -> ~ spells m w) -> out = []) /\
    forall lab l, (lab, l) ∈ out -> l_threads l = tnum /\ l_nnz l = length es /\
      (lab <> txt "HashIntersect" -> l_sum l = (Z.of_nat (length ts) mod 2 ^ 64)%Z) /\
      (lab = txt "HashIntersect" -> l_sum l = (Z.of_nat (length es) mod 2 ^ 64)%Z).
Proof.
  intros pick null0 ltV sortP sortT stdsort stdsortK itmax f t n p ts es s tnum h Hp HsP HsT Hss HsK Hi Hwf Hsk Hint Hr Hc Ht Hlk Hby Hts Hes Htn Hti (Hone & Hw & Hin) Hs17 Htri Hno.
  destruct (tri_input ltV sortP sortT stdsort itmax f t n p HsP HsT Hss Hi Hwf Hsk Hint Hr Hc Ht Hlk Hby)
    as (X & L & T & HX & HL1 & HL2 & ET & HwX & HrX & HcX & Pp & HLJ & HE & HG & HwL & HrL & HcL & Hsm & Hsc & H1 & Hones & Hnz & Hn).
  assert (Hlow : forall w, w ∈ tri_known -> toLower <$> w = w).
  { intros w Hin'. assert (K : Forall (fun w : text => toLower <$> w = w) tri_known) by (apply (bool_decide_unpack _); vm_compute; exact I). rewrite Forall_forall in K. apply K, Hin'. }
  assert (Hmo : forall w, w ∈ tri_known -> modeOf s = w -> exists m, s_mode s = Some m /\ spells m w).
  { intros w Hin' Em. unfold modeOf in Em. destruct (s_mode s) as [m|] eqn:Es.
    - exists m. split; [reflexivity|]. apply spells_lower; [apply Hlow, Hin'|exact Em].
    - exfalso. simpl in Em. subst w. assert (K : Forall (fun w : text => w <> []) tri_known) by (apply (bool_decide_unpack _); vm_compute; exact I). rewrite Forall_forall in K. apply (K [] Hin'). reflexivity. }
  assert (B1 : modeOf s ∈ [txt "inner"; txt "dot"; txt "msa"; txt "hash"; txt "intersect"; txt "all"] -> (N.of_nat (n + 1) < 2 ^ 17)%N).
  { intros Hm. destruct (Hmo (modeOf s)) as (m & Em & Hsp); [revert Hm; apply sub_dec; vm_compute; reflexivity|reflexivity|]. eapply Hs17; eassumption. }
  assert (B2 : modeOf s ∈ [txt "intersect"; txt "all"] -> ts <> []).
  { intros Hm. destruct (Hmo (modeOf s)) as (m & Em & Hsp); [revert Hm; apply sub_dec; vm_compute; reflexivity|reflexivity|]. eapply Htri; eassumption. }
  assert (B3 : modeOf s <> txt "all1p").
  { intros Hm. destruct (Hmo (txt "all1p")) as (m & Em & Hsp); [apply (bool_decide_unpack _); vm_compute; exact I|exact Hm|]. eapply Hno; eassumption. }
  pose proof (triBenches_ok X L T n itmax tnum p (means f) es ts HwX HrX HcX Pp HE HLJ Hes Hts HG HwL Hsm Hsc H1 Htn Hones Hnz Hn Hi Hti stdsortK HsK s B1 B3 B2) as HB.
  destruct (passes_T pick null0 Hp s tnum Hone Hw Hin (ts <> []) (length es) (sumT es ts) _ _ HB (outerIters s) h) as [[r0 Hr0] Hall].
  split.
  - exists r0, (Ok X). split; [apply HX; reflexivity|]. exists L. split; [exact HL1|]. rewrite ET. eexists. split; [apply C58_flop_csc; [exact HwL|exact HwL|congruence|reflexivity]|exact Hr0].
  - intros r (rX & HrX' & Hm). apply HX in HrX'. subst rX. destruct Hm as (L' & HL' & Hm). apply HL2 in HL'. subst L'. rewrite ET in Hm. destruct Hm as (flop & _ & Hm).
    destruct (Hall r Hm) as (h' & out & -> & K1 & K2 & K3 & K4). exists h', out. split; [reflexivity|]. split; [exact K1|]. split; [exact K2|]. split; [|split].
    + intros m w labels Es Hmode Hsp. rewrite K3. assert (Em : modeOf s = w).
      { unfold modeOf. rewrite Es. simpl. apply spells_lower; [|exact Hsp]. apply Hlow. assert (Hw' : w ∈ fst <$> tri_modes) by (apply elem_of_list_fmap; exists (w, labels); auto).
        revert Hw'. apply sub_dec. vm_compute. reflexivity. }
      rewrite Em, filter_modes, tri_bmodes, (tri_filter w labels Hmode). reflexivity.
    + intros Hnone. apply (fmap_nil_inv fst). rewrite K3.
      assert (Hz : fst <$> filter (fun p : text * bench => modeOf s ∈ b_modes (snd p)) (zip tri_labels_all (triBenches stdsortK itmax T L)) = []).
      { assert (Hmn : forall w, w ∈ fst <$> tri_modes -> modeOf s <> w).
        { intros w Hmode Em. destruct (Hmo w) as (m & Es & Hsp); [|exact Em|eapply Hnone; eassumption]. revert Hmode. apply sub_dec. vm_compute. reflexivity. }
        rewrite filter_modes, tri_bmodes. apply elem_of_nil_inv. intros lab Hx. apply elem_of_list_fmap in Hx as (q & _ & Hx). apply elem_of_list_filter in Hx as [Hx Hb].
        destruct q as [lab' l]. apply elem_of_zip_r in Hb. pose proof (tri_mlist_in _ _ Hb Hx) as Hq. apply elem_of_app in Hq as [Hq|Hq]; [apply elem_of_list_singleton in Hq; auto|eapply Hmn; [exact Hq|reflexivity]]. }
      rewrite Hz. clear. induction (outerIters s) as [|k IH]; [reflexivity|exact IH].
    + intros lab l Hl. rewrite Forall_forall in K4. destruct (K4 _ Hl) as (L1 & L2 & L3). cbn [fst snd] in *. split; [exact L1|]. split; [exact L2|]. unfold sumT in L3. rewrite L3.
      split; intros Hlab; [rewrite bool_decide_eq_false_2 by exact Hlab|rewrite bool_decide_eq_true_2 by exact Hlab]; reflexivity.
Qed.
Print Assumptions C73_report_partial.

(** The complete graph on four vertices: all degrees are equal, so the order is 3, 2, 1, 0; four triangles, closed by
    the edges 0-2, 0-3 and 1-3.  With MODE=All and 4 threads, 37 lines. *)
Definition exFile : mmfile := mkMM Integer SymYes [] 4 4 [(2, 1, 1%Z, []); (3, 1, 5%Z, []); (4, 1, (-2)%Z, []); (3, 2, 1%Z, []); (4, 2, 1%Z, []); (4, 3, 9%Z, [])].
Lemma exFile_wf : mm_wf exFile.
Proof.
  unfold mm_wf. split; [apply Forall_nil; exact I|split; [|split; [|split; [|split]]]].
  - apply Forall_forall. intros l Hl. apply Nat.leb_le. revert l Hl. rewrite <- Forall_forall.
    cbn [exFile mm_entries mm_field fmap list_fmap]. repeat (apply Forall_cons; split; [vm_compute; reflexivity|]). apply Forall_nil; exact I.
  - vm_compute. discriminate.
  - vm_compute. discriminate.
  - vm_compute. discriminate.
  - cbn [exFile mm_entries mm_rows mm_cols]. repeat (apply Forall_cons; split; [split; [lia|split; [lia|split; [vm_compute; discriminate|left; reflexivity]]]|]). apply Forall_nil; exact I.
Qed.
Lemma exFile_linked i j : linked (means exFile) i j <-> i <> j /\ i < 4 /\ j < 4.
Proof.
  assert (E : epos <$> means exFile = [(1, 0); (0, 1); (2, 0); (0, 2); (3, 0); (0, 3); (2, 1); (1, 2); (3, 1); (1, 3); (3, 2); (2, 3)]) by (vm_compute; reflexivity).
  unfold linked. rewrite E. split.
  - intros [Hne [H|H]]; (split; [exact Hne|]); rewrite !elem_of_cons, elem_of_nil in H; repeat destruct H as [[= -> ->]|H]; try lia; destruct H.
  - intros (Hne & Hi & Hj). split; [exact Hne|]. left. rewrite !elem_of_cons.
    do 4 (destruct i as [|i]; [do 4 (destruct j as [|j]; [first [lia|tauto]|]); lia|]). lia.
Qed.
Lemma exFile_by : by_degree (means exFile) 4 (fun i => 3 - i).
Proof.
  split; [split; lia|]. intros i j Hij. right. split; [|lia].
  assert (E : forall k, k < 4 -> degree (means exFile) k = 3) by (intros k Hk; do 4 (destruct k as [|k]; [vm_compute; reflexivity|]); lia).
  rewrite !E by lia. reflexivity.
Qed.
Lemma exFile_tri : file_triangles (means exFile) [(0, 1, 2); (0, 1, 3); (0, 2, 3); (1, 2, 3)].
Proof.
  split; [repeat constructor; rewrite ?elem_of_cons, ?elem_of_nil; intros H; repeat destruct H as [H|H]; try congruence; destruct H|].
  intros a b c. rewrite !exFile_linked, !elem_of_cons, elem_of_nil. split.
  - intros H. repeat destruct H as [[= -> -> ->]|H]; try lia; destruct H.
  - intros (H1 & H2 & _ & (_ & _ & H3) & _). assert (Hx : a = 0 /\ b = 1 /\ c = 2 \/ a = 0 /\ b = 1 /\ c = 3 \/ a = 0 /\ b = 2 /\ c = 3 \/ a = 1 /\ b = 2 /\ c = 3) by lia.
    destruct Hx as [(-> & -> & ->)|[(-> & -> & ->)|[(-> & -> & ->)|(-> & -> & ->)]]]; tauto.
Qed.
Lemma exFile_closing : closing_edges (means exFile) (fun i => 3 - i) [(0, 2); (0, 3); (1, 3)].
Proof.
  split; [repeat constructor; rewrite ?elem_of_cons, ?elem_of_nil; intros H; repeat destruct H as [H|H]; try congruence; destruct H|].
  intros a c. rewrite exFile_linked, !elem_of_cons, elem_of_nil. split.
  - intros H. repeat destruct H as [[= -> ->]|H]; [..|destruct H]; (split; [lia|]); [exists 1|exists 1|exists 2]; rewrite !exFile_linked; lia.
  - intros ((_ & H1 & H2) & b & _ & _ & H3). assert (Hx : a = 0 /\ c = 2 \/ a = 0 /\ c = 3 \/ a = 1 /\ c = 3) by lia. destruct Hx as [(-> & ->)|[(-> & ->)|(-> & ->)]]; tauto.
Qed.
Example C73_example :
  spells (txt "All") (txt "all") /\
  forall pick null0 stdsortK itmax t h, (forall h, h !! pick h = None) -> sort_contract (fun _ _ => False) stdsortK -> (2 ^ 63 - 1 <= Z.of_nat itmax)%Z -> file_text exFile t ->
  let ends := triMain pick null0 isort isort (merge_sort zle) stdsortK itmax (Some t) (mkSet None (Some 3) None (Some (txt "All"))) 4 h in
  (exists r, ends r) /\ forall r, ends r -> exists out, r = Ok (h, out) /\ length out = 37 /\
    forall lab l, (lab, l) ∈ out -> l_threads l = 4 /\ l_nnz l = 3 /\ l_sum l = (if bool_decide (lab = txt "HashIntersect") then 3 else 4)%Z.
Proof.
  assert (Hsp : spells (txt "All") (txt "all")) by (apply spells_lower; reflexivity). split; [exact Hsp|]. intros pick null0 stdsortK itmax t h Hp HK Hi Ht.
  destruct (C73_report_partial pick null0 Z.lt isort isort (merge_sort zle) stdsortK itmax exFile t 4 (fun i => 3 - i) [(0, 1, 2); (0, 1, 3); (0, 2, 3); (1, 2, 3)] [(0, 2); (0, 3); (1, 3)] (mkSet None (Some 3) None (Some (txt "All"))) 4 h
    Hp isort_std isort_std merge_sort_contract HK Hi exFile_wf ltac:(discriminate) ltac:(repeat constructor) eq_refl eq_refl Ht) as [Hex Hall];
    [exists 0, 1; apply exFile_linked; lia|exact exFile_by|exact exFile_tri|exact exFile_closing|lia|unfold intmax; lia|cbn; lia|intros; cbn; lia|discriminate| |].
  { intros m [= <-] H. apply spells_lower in H; [discriminate H|reflexivity]. }
  cbv zeta. split; [exact Hex|]. intros r Hr. destruct (Hall r Hr) as (h' & out & -> & _ & Hh & Hlab & _ & Hline). exists out. rewrite Hh by (cbn; (discriminate || lia)). split; [reflexivity|]. split.
  - rewrite <- (fmap_length fst). rewrite (Hlab (txt "All") (txt "all") (tri_inner ++ tri_msa ++ tri_hash ++ tri_heap ++ tri_isect) eq_refl); [reflexivity| |exact Hsp].
    do 6 right. left.
  - intros lab l Hl. destruct (Hline lab l Hl) as (L1 & L2 & L3 & L4). split; [exact L1|]. split; [exact L2|]. case_bool_decide as E; [rewrite (L4 E)|rewrite (L3 E)]; reflexivity.
Qed.

(** Finding: if there is no triangle, the modes intersect and all read through a pointer that was never set (the
    result of HashIntersect is assigned, and the assignment of a matrix without entries leaves its arrays as they are). *)
Theorem C73_no_triangle_refuted :
  forall pick null0 (ltV : Z -> Z -> Prop) sortP sortT stdsort stdsortK itmax f t n s tnum h m w r,
  (forall h, h !! pick h = None) -> std_sort sortP -> std_sort sortT -> sort_contract ltV stdsort -> sort_contract (fun _ _ => False) stdsortK ->
  (2 ^ 63 - 1 <= Z.of_nat itmax)%Z ->
  mm_wf f -> mm_symm f <> SymSkew -> values_integral f -> mm_rows f = n -> mm_cols f = n -> file_text f t ->
  (exists i j, linked (means f) i j) -> file_triangles (means f) [] -> (N.of_nat (n + 1) < 2 ^ 17)%N ->
  1 <= tnum -> (Z.of_nat tnum <= intmax)%Z ->
  (let inner := default 1 (s_inner s) in let warmup := default (if inner =? 1 then 0 else 1) (s_warmup s) in
     (0 < inner \/ warmup = 1) /\ (N.of_nat warmup <= 2147483647)%N /\ (N.of_nat inner <= 2147483647)%N) ->
  default 1 (s_outer s) <> 0 -> s_mode s = Some m -> w ∈ [txt "intersect"; txt "all"] -> spells m w ->
  triMain pick null0 sortP sortT stdsort stdsortK itmax (Some t) s tnum h r <-> r = Err Uninit.
Proof.
  intros pick null0 ltV sortP sortT stdsort stdsortK itmax f t n s tnum h m w r Hp HsP HsT Hss HsK Hi Hwf Hsk Hint Hr Hc Ht Hlk Hts Hs17 Htn Hti (Hone & Hw & Hin) Ho Es Hmw Hsp.
  destruct (rank_exists (degree (means f)) n) as (p & Pp0 & Rp0).
  destruct (tri_input ltV sortP sortT stdsort itmax f t n p HsP HsT Hss Hi Hwf Hsk Hint Hr Hc Ht Hlk (conj Pp0 Rp0))
    as (X & L & T & HX & HL1 & HL2 & ET & HwX & HrX & HcX & Pp & HLJ & HE & HG & HwL & HrL & HcL & Hsm & Hsc & H1 & Hones & Hnz & Hn).
  assert (Hes : closing_edges (means f) p []).
  { split; [constructor|]. intros a c. split; [intros H; inversion H|]. intros (Lac & b & Lab & Lbc & _). exfalso.
    assert (Hsym : forall i j, linked (means f) i j -> linked (means f) j i) by (intros i j [? ?]; split; [congruence|tauto]).
    assert (Hnone : forall x y z, x < y -> y < z -> linked (means f) x y -> linked (means f) y z -> linked (means f) x z -> False).
    { intros x y z Hxy Hyz J1 J2 J3. assert (Hx : (x, y, z) ∈ ([] : list (nat * nat * nat))) by (apply (proj2 Hts); auto). inversion Hx. }
    pose proof (proj1 Lac). pose proof (proj1 Lab). pose proof (proj1 Lbc).
    destruct (Nat.lt_total a b) as [?|[?|?]]; [|congruence|]; destruct (Nat.lt_total b c) as [?|[?|?]]; try congruence; destruct (Nat.lt_total a c) as [?|[?|?]]; try congruence; try lia.
    - eapply (Hnone a b c); eauto.
    - eapply (Hnone a c b); eauto.
    - eapply (Hnone c a b); eauto.
    - eapply (Hnone b a c); eauto.
    - eapply (Hnone b c a); eauto.
    - eapply (Hnone c b a); eauto. }
  assert (Em : modeOf s = w).
  { unfold modeOf. rewrite Es. simpl. apply spells_lower; [|exact Hsp]. apply elem_of_cons in Hmw as [->|Hmw]; [reflexivity|]. apply elem_of_list_singleton in Hmw as ->. reflexivity. }
  assert (B3 : modeOf s <> txt "all1p").
  { rewrite Em. apply elem_of_cons in Hmw as [->|Hmw]; [discriminate|]. apply elem_of_list_singleton in Hmw as ->. discriminate. }
  pose proof (triBenches_before X L T n itmax tnum p (means f) [] [] HwX HrX HcX Pp HE HLJ Hes Hts HG HwL Hsm Hsc H1 Htn Hones Hnz Hn Hi Hti stdsortK HsK s (fun _ => Hs17) B3) as HB.
  set (b := mkBench [txt "intersect"; txt "all"] (str "HashIntersect") KAssign (productIsect stdsortK itmax T)).
  assert (Esp : triBenches stdsortK itmax T L = take 36 (triBenches stdsortK itmax T L) ++ b :: drop 37 (triBenches stdsortK itmax T L)) by reflexivity.
  assert (Hb1 : forall h r, bench1 pick null0 s tnum b h r <-> r = Err Uninit).
  { assert (HU : forall h r, run 0%Z pick null0 0%Z (stepInt 64) (plusInt 64) bytesI bytesV 8 8 (b_kind b) (b_prod b) (warmupIters s) (innerIters s) [tnum] h r <-> r = Err Uninit).
    { intros h0. apply C71_assigned_empty_refuted; [exact Hp|exact Hw|exact Hin| |].
      - exact (proj1 (isect_call T n itmax tnum HG H1 Htn Hn Hi Hti Hs17 stdsortK HsK)).
      - intros nz R HR. eapply (isect_empty X T n itmax tnum p (means f) [] []) with (nz := nz); eauto. }
    intros h0 r0. unfold bench1. split.
    - intros (r1 & Hr1 & ->). apply HU in Hr1. subst r1. reflexivity.
    - intros ->. exists (Err Uninit). split; [apply HU; reflexivity|reflexivity]. }
  assert (Hps : forall h r, pass pick null0 s tnum (triBenches stdsortK itmax T L) h r <-> r = Err Uninit).
  { intros h0 r0. rewrite Esp. eapply pass_stop; [exact Hp|exact Hone|exact Hw|exact Hin|exact HB|rewrite Em; exact Hmw|exact Hb1]. }
  unfold triMain. split.
  - intros (rX & HrX' & Hm). apply HX in HrX'. subst rX. destruct Hm as (L' & HL' & Hm). apply HL2 in HL'. subst L'. rewrite ET in Hm. destruct Hm as (flop & _ & Hm).
    unfold outerIters in Hm. destruct (default 1 (s_outer s)) as [|k]; [congruence|]. destruct Hm as (r1 & Hr1 & Hm). apply Hps in Hr1. subst r1. exact Hm.
  - intros ->. exists (Ok X). split; [apply HX; reflexivity|]. exists L. split; [exact HL1|]. rewrite ET. eexists. split; [apply C58_flop_csc; [exact HwL|exact HwL|congruence|reflexivity]|].
    unfold outerIters. destruct (default 1 (s_outer s)) as [|k]; [congruence|]. exists (Err Uninit). split; [apply Hps; reflexivity|reflexivity].
Qed.
Print Assumptions C73_no_triangle_refuted.
(** The path of the file of C53. *)
Example C73_no_triangle_example : mm_wf exMM /\ mm_symm exMM <> SymSkew /\ values_integral exMM /\ file_text exMM (render exMM) /\ (exists i j, linked (means exMM) i j) /\ file_triangles (means exMM) [].
Proof.
  split; [exact exMM_wf|]. split; [discriminate|]. split; [repeat constructor|]. split; [left; exists []; rewrite app_nil_r; reflexivity|].
  assert (E : epos <$> means exMM = [(0, 0); (1, 0); (0, 1); (2, 1); (1, 2)]) by (vm_compute; reflexivity). unfold file_triangles, linked. rewrite E. split.
  - exists 0, 1. split; [lia|]. left. rewrite !elem_of_cons. tauto.
  - split; [constructor|]. intros a b c. rewrite !elem_of_cons, !elem_of_nil. split; [intros []|]. intros (H1 & H2 & (_ & J1) & (_ & J2) & (_ & J3)).
    assert (F : a = 0 /\ c = 1 \/ a = 1 /\ c = 2 \/ a = c) by (destruct J3 as [J3|J3]; repeat destruct J3 as [[= -> ->]|J3]; try lia; destruct J3). lia.
Qed.

(** Finding: the mode all1p never ends well once two edges follow each other downwards in the order of the degrees, in
    particular if there is a triangle: it calls the driver that C29 refutes. *)
Theorem C73_all1p_refuted :
  forall pick null0 (ltV : Z -> Z -> Prop) sortP sortT stdsort stdsortK itmax f t n p s tnum h m a b c x,
  std_sort sortP -> std_sort sortT -> sort_contract ltV stdsort -> (2 ^ 63 - 1 <= Z.of_nat itmax)%Z ->
  mm_wf f -> mm_symm f <> SymSkew -> values_integral f -> mm_rows f = n -> mm_cols f = n -> file_text f t ->
  by_degree (means f) n p -> linked (means f) a b -> linked (means f) b c -> p c < p b < p a -> 1 <= tnum ->
  default 1 (s_outer s) <> 0 -> s_inner s <> Some 0 -> s_mode s = Some m -> spells m (txt "all1p") ->
  ~ triMain pick null0 sortP sortT stdsort stdsortK itmax (Some t) s tnum h (Ok x).
Proof.
  intros pick null0 ltV sortP sortT stdsort stdsortK itmax f t n p s tnum h m a b c x HsP HsT Hss Hi Hwf Hsk Hint Hr Hc Ht Hby Lab Lbc Hpo Htn Ho Hin0 Es Hsp (rX & HrX' & Hm).
  destruct (tri_input ltV sortP sortT stdsort itmax f t n p HsP HsT Hss Hi Hwf Hsk Hint Hr Hc Ht (ex_intro _ a (ex_intro _ b Lab)) Hby)
    as (X & L & T & HX & HL1 & HL2 & ET & HwX & HrX & HcX & Pp & HLJ & HE & HG & HwL & HrL & HcL & Hsm & Hsc & H1 & Hones & Hnz & Hn).
  apply HX in HrX'. subst rX. destruct Hm as (L' & HL' & Hm). apply HL2 in HL'. subst L'. rewrite ET in Hm. destruct Hm as (flop & _ & Hm).
  unfold outerIters in Hm. destruct (default 1 (s_outer s)) as [|k]; [congruence|]. destruct Hm as (r1 & Hr1 & Hm). destruct r1 as [y|]; [|discriminate Hm].
  assert (Em : modeOf s = txt "all1p") by (unfold modeOf; rewrite Es; simpl; apply spells_lower; [reflexivity|exact Hsp]).
  set (q := mkBench [txt "all1p"] (str "MaskedSpGEMM1p") K1p (productPoly T)).
  assert (Hwk : 0 < warmupIters s + innerIters s) by (unfold innerIters, warmupIters; destruct (s_inner s) as [[|]|]; simpl; [congruence|lia|lia]).
  destruct (pass_called _ _ _ _ _ _ _ q Hwk Hr1) as (nz & R & HR).
  { apply (elem_of_list_lookup_2 _ 44). reflexivity. }
  { rewrite Em. left. }
  cbn [q b_prod] in HR. specialize (HR 0 1 sc0 (st3 T) ltac:(lia) eq_refl).
  pose proof HG as (HwT & HsT' & HrT & HcT).
  assert (HC : compatible T T T) by (constructor; congruence).
  assert (HF : poly_faults mul64 add64 8 16 0 0 0 1 tnum sc0 (st3 T) Uninit).
  { apply (C29_poly_refuted Z mul64 add64 T T T 8 16 n tnum HC HsT' HsT'); [|exact Htn| |reflexivity|reflexivity|reflexivity].
    - split; [lia|]. split; [lia|]. split.
      + intros i Hi'. apply sorted_bound; [apply SSorted_NoDup, HsT', Hi'|]. intros z Hz. unfold row_cols in Hz. apply elem_of_list_fmap in Hz as ([z' v] & -> & Hz).
        apply row_entries_range in Hz; [cbn; lia|exact HwT].
      + assert (El : N.lcm 8 16 = 16%N) by reflexivity. rewrite El, HcT. lia.
    - assert (E1 : edge T (p a) (p b)) by (apply HE; split; [lia|]; exists a, b; split; [apply HLJ, Lab|auto]).
      assert (E2 : edge T (p b) (p c)) by (apply HE; split; [lia|]; exists b, c; split; [apply HLJ, Lbc|auto]).
      exists (p a). split; [apply E1|]. destruct E1 as [_ E1], E2 as [_ E2]. split; [intros E0; rewrite E0 in E1; inversion E1|].
      unfold row_cols in E1, E2. apply elem_of_list_fmap in E1 as ([k' v] & Ek & Hin1). cbn in Ek. subst k'. exists (p b), v. split; [exact Hin1|]. intros E0. rewrite E0 in E2. inversion E2. }
  destruct HR as (A & B & M & HA & HB & HM & _ & f1 & c1 & t1 & Hp1 & e & mm & ss & HRg & _).
  destruct HF as (A' & B' & M' & HA' & HB' & HM' & _ & f2 & c2 & t2 & Hp2 & HFl).
  rewrite HA in HA'. rewrite HB in HB'. rewrite HM in HM'. injection HA' as <-. injection HB' as <-. injection HM' as <-.
  destruct (prepare_unique _ _ _ _ _ _ _ _ _ _ _ Hp1 Hp2) as (<- & <- & <-).
  apply (region_always_outcome _ _ _ _ _ _ _ _ HRg) in HFl. discriminate HFl.
Qed.
Print Assumptions C73_all1p_refuted.
Example C73_all1p_example : by_degree (means exFile) 4 (fun i => 3 - i) /\ linked (means exFile) 0 1 /\ linked (means exFile) 1 2 /\ 3 - 2 < 3 - 1 < 3 - 0 /\ mm_wf exFile /\ mm_symm exFile <> SymSkew /\
  values_integral exFile /\ file_text exFile (render exFile) /\ spells (txt "ALL1P") (txt "all1p").
Proof.
  split; [exact exFile_by|]. split; [apply exFile_linked; lia|]. split; [apply exFile_linked; lia|]. split; [lia|]. split; [exact exFile_wf|]. split; [discriminate|]. split; [repeat constructor|].
  split; [left; exists []; rewrite app_nil_r; reflexivity|apply spells_lower; reflexivity].
Qed.
