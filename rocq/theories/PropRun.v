(** C71: what a benchmark reports, and what it leaves behind. *)
From Coq Require Import NArith ZArith.
From stdpp Require Import numbers list_numbers gmap.
From Verif Require Import BaseProofs Assemble DriverStatements InnerDriverStatements MatSpec MatStatements PropMat GraphSpec GraphModel TriProofs TriAllModel TriAllSpec TriAllCalls PropTriAll
  NohashModel NohashProofs PropNohash PropReport PropIndex Examples PropDriver ObjModel ObjSpec RunModel RunSpec RunProofs.
From Verif Require Import Base Spec.
Local Open Scope nat_scope.

(** In all theorems: [pick], the allocator, returns a block that is not in use; [prod t nz R]: the product, called
    with [t] threads on an output object with nnz [nz], may compute [R]; [w] warm-up calls, [n] measured calls, the
    numbers of threads [ts]; [h] is the memory before. *)

(** C71, the report.  Whatever was in memory, and however the calls are made, run ends without a fault, keeps what
    was in memory, and prints one line for each number of threads, which speaks about a result of the product; if
    there is a measured call, or a single warm-up call, about one computed on an empty output object. *)
Theorem C71_report :
  forall V S (dflt : V) pick null0 (zero : S) step plus encI encV szI szV, (forall h, h !! pick h = None) ->
  (forall a, length (encI a) = szI) -> (forall a, length (encV a) = szV) ->
  forall k (prod : nat -> nat -> csr V -> Prop) w n ts h,
  0 < w + n -> (N.of_nat w <= 2147483647)%N -> (N.of_nat n <= 2147483647)%N ->
  (forall t nz, t ∈ ts -> exists R, prod t nz R) -> (forall t nz R, t ∈ ts -> prod t nz R -> handed k R) ->
  (exists r, run dflt pick null0 zero step plus encI encV szI szV k prod w n ts h r) /\
  forall r, run dflt pick null0 zero step plus encI encV szI szV k prod w n ts h r ->
    exists h' ls, r = Ok (h', ls) /\ h ⊆ h' /\
      Forall2 (fun t l => line_says zero step plus encI encV szI szV prod t (0 < n \/ w = 1) l) ts ls.
Proof.
  intros V S dflt pick null0 zero step plus encI encV szI szV Hp HI HV k prod w n ts h Hwn Hw Hn Hex Hsh.
  destruct (run_ok dflt pick null0 Hp prod zero step plus encI encV szI szV HI HV k w n Hwn Hw Hn ts h Hex Hsh) as [H1 H2].
  split; [exact H1|]. intros r Hr. destruct (H2 r Hr) as (h' & ls & -> & Hs & Hl & _). eauto.
Qed.
Print Assumptions C71_report.

(** Which blocks are left behind, exactly: [lost] of RunSpec. *)
Theorem C71_lost :
  forall V S (dflt : V) pick null0 (zero : S) step plus encI encV szI szV, (forall h, h !! pick h = None) ->
  (forall a, length (encI a) = szI) -> (forall a, length (encV a) = szV) ->
  forall k (prod : nat -> nat -> csr V -> Prop) w n ts h none,
  0 < w + n -> (N.of_nat w <= 2147483647)%N -> (N.of_nat n <= 2147483647)%N ->
  (forall t nz, t ∈ ts -> exists R, prod t nz R) ->
  (forall t nz R, t ∈ ts -> prod t nz R -> handed k R /\ rows R <> 0 /\ (nnz R =? 0) = none) ->
  forall h' ls, run dflt pick null0 zero step plus encI encV szI szV k prod w n ts h (Ok (h', ls)) ->
  h ⊆ h' /\ size h' = size h + sum_list ((fun t => lost null0 none k t w n) <$> ts).
Proof.
  intros V S dflt pick null0 zero step plus encI encV szI szV Hp HI HV k prod w n ts h none Hwn Hw Hn Hex Hsh h' ls Hr.
  destruct (run_ok dflt pick null0 Hp prod zero step plus encI encV szI szV HI HV k w n Hwn Hw Hn ts h Hex ltac:(intros t nz R Ht HR; apply (Hsh t nz R Ht HR))) as [_ H2].
  destruct (H2 _ Hr) as (h2 & ls2 & [= <- <-] & Hs & _ & Hz). split; [exact Hs|]. apply Hz. intros t Ht nz R HR. apply (Hsh t nz R Ht HR).
Qed.
Print Assumptions C71_lost.

Lemma sub_size_eq {A} (h h' : gmap nat A) : h ⊆ h' -> size h' = size h -> h' = h.
Proof.
  intros Hs Hz. assert (Hd : dom h ⊆ dom h') by (apply subseteq_dom, Hs).
  apply map_eq. intros i. destruct (h !! i) as [x|] eqn:E; [eapply lookup_weaken; eauto|]. destruct (h' !! i) as [y|] eqn:E'; [|reflexivity].
  assert (dom h ⊂ dom h') as Hlt.
  { split; [exact Hd|]. intros Hd'. assert (Hi : i ∈ dom h') by (apply elem_of_dom; eauto). apply Hd', elem_of_dom in Hi as [z Hi]. congruence. }
  apply subset_size in Hlt. rewrite !size_dom in Hlt. lia.
Qed.
Lemma sum_same (f : nat -> nat) c ts : (forall t, t ∈ ts -> f t = c) -> sum_list (f <$> ts) = length ts * c.
Proof.
  induction ts as [|t ts IH]; intros H; [reflexivity|]. rewrite fmap_cons. change (sum_list (f t :: (f <$> ts))) with (f t + sum_list (f <$> ts)).
  rewrite IH by (intros; apply H; right; assumption). rewrite (H t) by left. simpl. lia.
Qed.

(** Results with rows and entries are released: by the drivers of spgemm-blocks always, by the older products (but
    HeapSpGEMM) if there is at most one warm-up call. *)
Theorem C71_release_partial :
  forall V S (dflt : V) pick null0 (zero : S) step plus encI encV szI szV, (forall h, h !! pick h = None) ->
  (forall a, length (encI a) = szI) -> (forall a, length (encV a) = szV) ->
  forall k (prod : nat -> nat -> csr V -> Prop) w n ts h,
  0 < w + n -> (N.of_nat w <= 2147483647)%N -> (N.of_nat n <= 2147483647)%N ->
  (forall t nz, t ∈ ts -> exists R, prod t nz R) -> (forall t nz R, t ∈ ts -> prod t nz R -> handed k R /\ rows R <> 0 /\ nnz R <> 0) ->
  match k with
  | K1p | K2p | KAssign => True
  | KOver => w <= 1
  | KNohash mrows mnnz => w <= 1 /\ mrows <> 0 /\ mnnz <> 0
  | KHeap => False
  end ->
  forall h' ls, run dflt pick null0 zero step plus encI encV szI szV k prod w n ts h (Ok (h', ls)) -> h' = h.
Proof.
  intros V S dflt pick null0 zero step plus encI encV szI szV Hp HI HV k prod w n ts h Hwn Hw Hn Hex Hsh Hk h' ls Hr.
  destruct (C71_lost V S dflt pick null0 zero step plus encI encV szI szV Hp HI HV k prod w n ts h false Hwn Hw Hn Hex) with (h' := h') (ls := ls) as [Hs Hz]; [|exact Hr|].
  { intros t nz R Ht HR. destruct (Hsh t nz R Ht HR) as (K1 & K2 & K3). split; [exact K1|]. split; [exact K2|]. apply Nat.eqb_neq, K3. }
  rewrite (sum_same _ 0) in Hz; [apply sub_size_eq; [exact Hs|lia]|].
  intros t _. unfold lost, lost_result, lost_local, lost_before. destruct k as [| | |mr mn| |]; cbn [andb]; [lia|lia| | |destruct Hk|lia].
  - replace (w - 1) with 0 by lia. lia.
  - destruct Hk as (H1 & H2 & H3). replace (w - 1) with 0 by lia. rewrite !(proj2 (Nat.eqb_neq _ _)) by assumption. lia.
Qed.
Print Assumptions C71_release_partial.

(** Findings: what stays in use after the run. *)
Section Left.
Context {V S : Type} (dflt : V) (pick : gmap nat (ablock V) -> nat) (null0 : bool) (zero : S) (step : S -> V -> S) (plus : S -> S -> S).
Context (encI : nat -> list N) (encV : V -> list N) (szI szV : nat).
Context (Hp : forall h, h !! pick h = None) (HI : forall a, length (encI a) = szI) (HV : forall a, length (encV a) = szV).
Context (prod : nat -> nat -> csr V -> Prop) (w n : nat) (ts : list nat) (h : gmap nat (ablock V)).
Context (Hwn : 0 < w + n) (Hw : (N.of_nat w <= 2147483647)%N) (Hn : (N.of_nat n <= 2147483647)%N).
Context (Hex : forall t nz, t ∈ ts -> exists R, prod t nz R).
Notation RUN := (run dflt pick null0 zero step plus encI encV szI szV).
(** MaskedSPASpGEMM, mxm_hash_mask and innerSpGEMM_nohash overwrite the pointers of their output object: every
    warm-up call after the first loses three arrays. *)
Theorem C71_overwritten_refuted k : (k = KOver \/ exists mr mn, k = KNohash mr mn /\ mr <> 0 /\ mn <> 0) ->
  (forall t nz R, t ∈ ts -> prod t nz R -> shape R /\ rows R <> 0 /\ nnz R <> 0) ->
  forall h' ls, RUN k prod w n ts h (Ok (h', ls)) -> size h' = size h + length ts * (3 * (w - 1)).
Proof.
  intros Hk Hsh h' ls Hr.
  destruct (C71_lost V S dflt pick null0 zero step plus encI encV szI szV Hp HI HV k prod w n ts h false Hwn Hw Hn Hex) with (h' := h') (ls := ls) as [_ Hz]; [|exact Hr|].
  { intros t nz R Ht HR. destruct (Hsh t nz R Ht HR) as (K1 & K2 & K3). split; [split; [exact K1|destruct Hk as [-> | (? & ? & -> & _)]; exact I]|]. split; [exact K2|]. apply Nat.eqb_neq, K3. }
  rewrite Hz. f_equal. apply sum_same. intros t _. unfold lost, lost_result, lost_local, lost_before.
  destruct Hk as [-> | (mr & mn & -> & H1 & H2)]; cbn [andb]; [lia|]. rewrite !(proj2 (Nat.eqb_neq _ _)) by assumption. lia.
Qed.
(** HeapSpGEMM loses one array, threadsNvals, in every call. *)
Theorem C71_heap_refuted :
  (forall t nz R, t ∈ ts -> prod t nz R -> shape R /\ rows R <> 0 /\ nnz R <> 0) -> (forall t, t ∈ ts -> t <> 0) ->
  forall h' ls, RUN KHeap prod w n ts h (Ok (h', ls)) -> size h' = size h + length ts * (w + n).
Proof.
  intros Hsh Ht h' ls Hr.
  destruct (C71_lost V S dflt pick null0 zero step plus encI encV szI szV Hp HI HV KHeap prod w n ts h false Hwn Hw Hn Hex) with (h' := h') (ls := ls) as [_ Hz]; [|exact Hr|].
  { intros t nz R Hin HR. destruct (Hsh t nz R Hin HR) as (K1 & K2 & K3). split; [split; [exact K1|exact I]|]. split; [exact K2|]. apply Nat.eqb_neq, K3. }
  rewrite Hz. f_equal. apply sum_same. intros t Hin. unfold lost, lost_result, lost_local, lost_before. cbn [andb].
  rewrite (proj2 (Nat.eqb_neq _ _) (Ht t Hin)), andb_false_r. lia.
Qed.
(** An empty product: where malloc(0) gives a pointer, the drivers of spgemm-blocks lose two arrays in every call. *)
Theorem C71_empty_refuted k : (k = K1p \/ k = K2p) -> null0 = false ->
  (forall t nz R, t ∈ ts -> prod t nz R -> shape R /\ rows R <> 0 /\ nnz R = 0) ->
  forall h' ls, RUN k prod w n ts h (Ok (h', ls)) -> size h' = size h + length ts * (2 * (w + n)).
Proof.
  intros Hk E0 Hsh h' ls Hr.
  destruct (C71_lost V S dflt pick null0 zero step plus encI encV szI szV Hp HI HV k prod w n ts h true Hwn Hw Hn Hex) with (h' := h') (ls := ls) as [_ Hz]; [|exact Hr|].
  { intros t nz R Hin HR. destruct (Hsh t nz R Hin HR) as (K1 & K2 & K3). split; [split; [exact K1|destruct Hk as [-> | ->]; exact I]|]. split; [exact K2|]. apply Nat.eqb_eq, K3. }
  rewrite Hz. f_equal. apply sum_same. intros t Hin. unfold lost, lost_result, lost_local, lost_before. rewrite E0. destruct Hk as [-> | ->]; cbn [andb negb]; lia.
Qed.
End Left.
Print Assumptions C71_overwritten_refuted.
Print Assumptions C71_heap_refuted.
Print Assumptions C71_empty_refuted.

(** Finding: HashIntersect assigns its result, and the assignment operator leaves the pointers as they are when there
    are no entries.  The output object never had any: the report reads a pointer that was never set. *)
Lemma assign_loop {V} (dflt : V) pick null0 : (forall h : gmap nat (ablock V), h !! pick h = None) ->
  forall (prod : nat -> nat -> csr V -> Prop) t, (forall nz, exists R, prod t nz R) -> (forall nz R, prod t nz R -> wf R /\ rows R <> 0 /\ cols R <> 0 /\ nnz R = 0) ->
  forall h0 (f : obj * gmap nat (ablock V) -> res (obj * gmap nat (ablock V)) -> Prop),
  f = call dflt pick null0 KAssign prod t \/ f = measured dflt pick null0 KAssign prod t ->
  forall w n s X, St h0 n s X -> o_va (fst s) = PUninit ->
  (exists r, loopR f w s r) /\ forall r, loopR f w s r -> exists s' n' X', r = Ok s' /\ St h0 n' s' X' /\ o_va (fst s') = PUninit.
Proof.
  intros Hp prod t Hex Hres h0 f Hf.
  assert (H1 : forall n s X, St h0 n s X -> o_va (fst s) = PUninit ->
    (exists r, call dflt pick null0 KAssign prod t s r) /\ forall r, call dflt pick null0 KAssign prod t s r -> exists s' n' X', r = Ok s' /\ St h0 n' s' X' /\ o_va (fst s') = PUninit).
  { intros n s X [HI HX] Hv. split; [destruct (Hex (o_nnz (fst s))) as [R HR]; eexists; exists R; eauto|]. intros r (R & HR & ->). destruct (Hres _ R HR) as (W1 & W2 & W3 & W4).
    destruct s as [C h]. cbn [fst snd publish] in *.
    destruct (assign_step dflt pick null0 Hp R X C h0 n h HI HX) as (C' & h' & -> & I' & H' & Hv'); [split; [apply (wf_len R W1)|split; [apply (wf_colids R W1)|apply (wf_values R W1)]]|exact W1|lia|].
    eexists (C', h'), _, R. split; [reflexivity|]. split; [split; [exact I'|exact H']|]. cbn [fst]. rewrite Hv' by exact W4. exact Hv. }
  assert (H2 : forall n s X, St h0 n s X -> o_va (fst s) = PUninit ->
    (exists r, f s r) /\ forall r, f s r -> exists s' n' X', r = Ok s' /\ St h0 n' s' X' /\ o_va (fst s') = PUninit).
  { intros n s X HS Hv. destruct Hf as [-> | ->]; [eapply H1; eauto|]. unfold measured. pose proof HS as [HI HX]. rewrite <- (app_nil_r (owned (fst s))) in HI.
    destruct (makeEmpty_inv _ Hp _ _ _ _ _ X HI HX) as (C' & h' & E & I' & H' & O' & _). pose proof (ObjProofs.makeEmpty_ok _ _ _ HX) as E2. rewrite E in E2. rewrite E.
    eapply (H1 n (C', h')); [split; [cbn [fst snd]; rewrite O'; exact I'|exact H']|]. injection E2 as -> _. exact Hv. }
  induction w as [|w IH]; intros n s X HS Hv.
  - split; [eexists; constructor|]. intros r Hr. inversion Hr; subst. eauto 10.
  - destruct (H2 n s X HS Hv) as [[r0 Hr0] Hall]. destruct (Hall r0 Hr0) as (s0 & n0 & X0 & -> & HS0 & Hv0). split.
    + destruct (IH n0 s0 X0 HS0 Hv0) as [[r Hr] _]. exists r. eapply loop_next; eauto.
    + intros r Hr. inversion Hr as [|? ? e Hb|? ? s' ? Hb Hl]; subst; [destruct (Hall _ Hb) as (? & ? & ? & [=] & _)|].
      destruct (Hall _ Hb) as (s1 & n1 & X1 & [= <-] & HS1 & Hv1). exact (proj2 (IH n1 _ X1 HS1 Hv1) r Hl).
Qed.
Theorem C71_assigned_empty_refuted :
  forall V S (dflt : V) pick null0 (zero : S) step plus encI encV szI szV, (forall h, h !! pick h = None) ->
  forall (prod : nat -> nat -> csr V -> Prop) w n t ts h, (N.of_nat w <= 2147483647)%N -> (N.of_nat n <= 2147483647)%N ->
  (forall nz, exists R, prod t nz R) -> (forall nz R, prod t nz R -> wf R /\ rows R <> 0 /\ cols R <> 0 /\ nnz R = 0) ->
  forall r, run dflt pick null0 zero step plus encI encV szI szV KAssign prod w n (t :: ts) h r <-> r = Err Uninit.
Proof.
  intros V S dflt pick null0 zero step plus encI encV szI szV Hp prod w n t ts h Hw Hn Hex Hres.
  assert (S0 : St h 0 (defaultCtor, h) (mkCsr 0 0 0 [] [] [])) by (split; [exact (inv_start pick Hp h)|exact (default_holds pick Hp h)]).
  destruct (assign_loop dflt pick null0 Hp prod t Hex Hres h _ (or_introl eq_refl) w 0 _ _ S0 eq_refl) as [[rw Hrw] HW].
  assert (HM : forall s, loopR (call dflt pick null0 KAssign prod t) w (defaultCtor, h) (Ok s) ->
    (exists r, loopR (measured dflt pick null0 KAssign prod t) n s r) /\ forall r, loopR (measured dflt pick null0 KAssign prod t) n s r -> exists s', r = Ok s' /\ o_va (fst s') = PUninit).
  { intros s Hs. destruct (HW _ Hs) as (s' & n' & X' & [= <-] & HS & Hv). destruct (assign_loop dflt pick null0 Hp prod t Hex Hres h _ (or_intror eq_refl) n n' _ _ HS Hv) as [He Ha].
    split; [exact He|]. intros r Hr. destruct (Ha r Hr) as (s2 & _ & _ & -> & _ & Hv2). eauto. }
  assert (HR : forall C h r, o_va C = PUninit -> report (V := V) zero step plus encI encV szI szV t C h r <-> r = Err Uninit).
  { intros C h1 r Hv. unfold report, readV. rewrite Hv. reflexivity. }
  intros r. cbn [run]. unfold runOne, intLoop. destruct (N.leb_spec (N.of_nat w) 2147483647); [|lia]. destruct (N.leb_spec (N.of_nat n) 2147483647); [|lia]. split.
  - intros (r1 & (r2 & H1 & H2) & H3). destruct (HW r2 H1) as (s & _ & _ & -> & _). destruct H2 as (r3 & H2 & H4). destruct (proj2 (HM s H1) r3 H2) as ([C h2] & -> & Hv).
    destruct H4 as (r4 & H4 & ->). apply (HR C h2 r4 Hv) in H4. subst r4. exact H3.
  - intros ->. destruct (HW rw Hrw) as (s & _ & _ & -> & _). destruct (HM s Hrw) as [[r2 Hr2] Ha]. destruct (Ha r2 Hr2) as ([C h2] & -> & Hv).
    exists (Err Uninit). split; [|reflexivity]. exists (Ok s). split; [exact Hrw|]. exists (Ok (C, h2)). split; [exact Hr2|]. exists (Err Uninit). split; [apply HR, eq_refl; exact Hv|reflexivity].
Qed.
Print Assumptions C71_assigned_empty_refuted.

(** Finding: with no call at all (witers = niters = 0, which argument parsing lets through) the report reads the
    pointers of an object on which nothing was ever stored. *)
Theorem C71_no_call_refuted :
  forall V S (dflt : V) pick null0 (zero : S) step plus encI encV szI szV k (prod : nat -> nat -> csr V -> Prop) t ts h r,
  run dflt pick null0 zero step plus encI encV szI szV k prod 0 0 (t :: ts) h r <-> r = Err Uninit.
Proof.
  intros. split.
  - intros (r1 & (r2 & H1 & H2) & H). cbn in H1. inversion H1; subst. destruct H2 as (r3 & H3 & H4). cbn in H3. inversion H3; subst.
    destruct H4 as (r4 & H4 & ->). cbn in H4. subst r4. exact H.
  - intros ->. exists (Err Uninit). split; [|reflexivity]. exists (Ok (defaultCtor, h)). split; [constructor|]. exists (Ok (defaultCtor, h)). split; [constructor|].
    exists (Err Uninit). split; reflexivity.
Qed.
Print Assumptions C71_no_call_refuted.

(** Finding: the numbers of calls are size_t, the counters int; more than 2^31 - 1 calls never end well. *)
Theorem C71_many_refuted :
  forall V S (dflt : V) pick null0 (zero : S) step plus encI encV szI szV k (prod : nat -> nat -> csr V -> Prop) w n t ts h x,
  (2147483647 < N.of_nat w \/ 2147483647 < N.of_nat n)%N ->
  ~ run dflt pick null0 zero step plus encI encV szI szV k prod w n (t :: ts) h (Ok x).
Proof.
  intros V S dflt pick null0 zero step plus encI encV szI szV k prod w n t ts h x Hb (r1 & (r2 & H1 & H2) & H). unfold intLoop in *.
  destruct (N.leb_spec (N.of_nat w) 2147483647); [|subst r2 r1; discriminate]. destruct (N.leb_spec (N.of_nat n) 2147483647); [lia|].
  destruct r2 as [s|e]; [|subst r1; discriminate]. destruct H2 as (r3 & -> & ->). discriminate.
Qed.
Print Assumptions C71_many_refuted.

(** Finding: innerSpGEMM_nohash adds to the nnz it finds.  With [w] warm-up calls and no measured one the line says
    [w] times the number of entries of the product. *)
Theorem C71_old_nnz_refuted :
  forall V S (dflt z : V) mul add W top nts min pick null0 (zero : S) step plus encI encV szI szV, (forall h, h !! pick h = None) ->
  (forall a, length (encI a) = szI) -> (forall a, length (encV a) = szV) ->
  forall (A B M : csr V) (Bc : csc V) ts,
  compatible A B M -> wf_csc Bc -> same_matrix B Bc ->
  (forall i, i < rows A -> StronglySorted lt (row_cols A i)) -> distinct_rows B -> sorted_cols Bc ->
  rows A <> 0 -> (forall t, t ∈ ts -> 1 <= t) -> (N.of_nat (rows A + 1) < 2 ^ 17)%N -> (forall t, t ∈ ts -> rows A + t <= W) -> 1 <= min < W ->
  (forall p k, colids A !! p = Some k -> k < cols B) ->
  (forall t, t ∈ ts -> sum_list (bin_work A Bc <$> seq 0 (rows A)) + t <= W) -> (forall i, i < rows A -> 2 * Nat.min (bin_work A Bc i) (cols B) <= W) ->
  forall w h, 0 < w -> (N.of_nat w <= 2147483647)%N ->
  let prod t nz C := innerSpGEMM_nohash_ends dflt z mul add W top nts t min A Bc M nz C in
  (exists r, run dflt pick null0 zero step plus encI encV szI szV (KNohash (rows M) (nnz M)) prod w 0 ts h r) /\
  forall r, run dflt pick null0 zero step plus encI encV szI szV (KNohash (rows M) (nnz M)) prod w 0 ts h r ->
    exists h' ls, r = Ok (h', ls) /\ Forall2 (fun t l => forall C, prod t 0 C -> l_nnz l = w * nnz C) ts ls.
Proof.
  intros V S dflt z mul add W top nts min pick null0 zero step plus encI encV szI szV Hp HI HV A B M Bc ts Hco HBc Hsm HsA Hd HsB H0 Hts HN HrW Hm Hin HW Hf w h Hw Hw' prod.
  assert (HP : forall t nz, t ∈ ts -> prod t nz (nhOut dflt z mul add A B M nz) /\ forall C, prod t nz C -> C = nhOut dflt z mul add A B M nz).
  { intros t nz Ht. apply nohash_ok; auto. }
  assert (Hex : forall t nz, t ∈ ts -> exists R, prod t nz R) by (intros t nz Ht; eexists; apply (HP t nz Ht)).
  assert (Hsh : forall t nz R, t ∈ ts -> prod t nz R -> handed (KNohash (rows M) (nnz M)) R).
  { intros t nz R Ht HR. split; [|exact I]. rewrite (proj2 (HP t nz Ht) R HR). unfold nhOut, shape. cbn [rowptr rows colids values nnz].
    rewrite !app_length, !replicate_length. unfold assemble. cbn [rowptr rows colids values nnz]. rewrite !fmap_length, seq_length, rowsOf_length, pre_0 by lia. lia. }
  destruct (C71_report V S dflt pick null0 zero step plus encI encV szI szV Hp HI HV (KNohash (rows M) (nnz M)) prod w 0 ts h ltac:(lia) Hw' ltac:(lia) Hex Hsh) as [H1 H2].
  split; [exact H1|]. intros r Hr. destruct (H2 r Hr) as (h' & ls & -> & _ & _). exists h', ls. split; [reflexivity|].
  pose proof (run_nnz dflt pick null0 Hp prod zero step plus encI encV szI szV HI HV (KNohash (rows M) (nnz M)) w (fun _ => nnz (nhOut dflt z mul add A B M 0)) ts h h' ls Hex Hsh) as HN'.
  specialize (HN' ltac:(intros t nz R Ht HR; rewrite (proj2 (HP t nz Ht) R HR); reflexivity) Hr).
  apply Forall2_same_length_lookup. split; [apply (Forall2_length _ _ _ HN')|]. intros i t l Hi Hl C HC.
  rewrite (proj2 (HP t 0 (elem_of_list_lookup_2 _ _ _ Hi)) C HC). eapply (proj2 (proj1 (Forall2_same_length_lookup _ _ _) HN')); eassumption.
Qed.
Print Assumptions C71_old_nnz_refuted.

(** C71 with C54: TriCntAll.cpp.  Whatever the numbers of warm-up and measured calls (a measured call, or a single
    warm-up call) and the numbers of threads, each of its products reports the number of triangles, modulo 2^64, on
    every line.  [mx t] is the call with [t] threads. *)
Theorem C71_triangles_partial :
  forall (ltV : Z -> Z -> Prop) sortP sortT stdsort, std_sort sortP -> std_sort sortT -> sort_contract ltV stdsort ->
  forall (A : csc Z) nv tris, wf_csc A -> c_rows A = nv -> c_cols A = nv -> (exists i j, joined A i j) -> triangles A tris ->
  exists L T,
    preprocessInput_ends 0%Z 1%Z sortP sortT stdsort A L /\
    (forall L', preprocessInput_ends 0%Z 1%Z sortP sortT stdsort A L' -> L' = L) /\
    csrOfCsc 0%Z L = Ok T /\
    forall pick null0 encI encV szI szV k (mx : nat -> csr Z -> csc Z -> csr Z -> Prop) (prod : nat -> nat -> csr Z -> Prop) w n ts h,
    (forall h, h !! pick h = None) -> (forall a, length (encI a) = szI) -> (forall a, length (encV a) = szV) ->
    0 < n \/ w = 1 -> (N.of_nat w <= 2147483647)%N -> (N.of_nat n <= 2147483647)%N ->
    (forall t, t ∈ ts -> triCall nv (mx t)) ->
    (forall t nz, t ∈ ts -> exists R, prod t nz R) -> (forall t nz R, t ∈ ts -> prod t nz R -> handed k R) ->
    (forall t R, t ∈ ts -> prod t 0 R -> mx t T L R) ->
    (exists r, run 0%Z pick null0 0%Z (stepInt 64) (plusInt 64) encI encV szI szV k prod w n ts h r) /\
    forall r, run 0%Z pick null0 0%Z (stepInt 64) (plusInt 64) encI encV szI szV k prod w n ts h r ->
      exists h' ls, r = Ok (h', ls) /\ h ⊆ h' /\
        Forall2 (fun t l => l_threads l = t /\ l_sum l = (Z.of_nat (length tris) mod 2 ^ 64)%Z) ts ls.
Proof.
  intros ltV sortP sortT stdsort HsP HsT Hss A nv tris Hw Hr Hc Hj Htr.
  destruct (C54_triangles_partial ltV sortP sortT stdsort HsP HsT Hss A nv tris Hw Hr Hc Hj Htr) as (L & T & H1 & H2 & H3 & H4).
  exists L, T. do 3 (split; [assumption|]). intros pick null0 encI encV szI szV k mx prod w n ts h Hp HI HV Hwn Hbw Hbn Hmx Hex Hsh Hpm.
  destruct (C71_report Z Z 0%Z pick null0 0%Z (stepInt 64) (plusInt 64) encI encV szI szV Hp HI HV k prod w n ts h ltac:(lia) Hbw Hbn Hex Hsh) as [H5 H6].
  split; [exact H5|]. intros r Hrun. destruct (H6 r Hrun) as (h' & ls & -> & Hs & Hl). exists h', ls. split; [reflexivity|]. split; [exact Hs|].
  apply Forall2_same_length_lookup in Hl as [Hlen Hl]. apply Forall2_same_length_lookup. split; [exact Hlen|]. intros i t l Hi Hli.
  destruct (Hl i t l Hi Hli) as (E1 & nz & R & HR & Hnz & _ & Hsum & _). split; [exact E1|]. rewrite (Hnz Hwn) in HR.
  pose proof (elem_of_list_lookup_2 _ _ _ Hi) as Ht. apply (proj2 (H4 (mx t) (Hmx t Ht)) R (Hpm t R Ht HR)), Hsum.
Qed.
Print Assumptions C71_triangles_partial.

(** The allocator that returns the lowest number above all blocks in use, and the product of the example matrices:
    two warm-up and three measured calls, with 1 and with 4 threads. *)
Definition pickFresh {V} (h : gmap nat (ablock V)) : nat := fresh (dom h).
Lemma pickFresh_ok {V} (h : gmap nat (ablock V)) : h !! pickFresh h = None.
Proof. apply not_elem_of_dom, is_fresh. Qed.
Definition exProd (t nz : nat) (R : csr Z) : Prop := R = exC.
Example C71_example :
  let R k := run 0%Z pickFresh false 0%Z Z.add Z.add enc4 (fun v => enc4 (Z.to_nat v)) 4 4 k exProd 2 3 [1; 4] ∅ in
  (exists r, R K2p r) /\ (forall r, R K2p r -> exists ls, r = Ok (∅, ls) /\ (fun l => (l_threads l, l_nnz l)) <$> ls = [(1, 3); (4, 3)]) /\
  (forall h ls, R KOver (Ok (h, ls)) -> size h = 6) /\ (forall h ls, R KHeap (Ok (h, ls)) -> size h = 10) /\ shape exC.
Proof.
  assert (Hsh : shape exC) by (repeat split).
  assert (Hex : forall t nz, t ∈ [1; 4] -> exists R, exProd t nz R) by (intros; eexists; reflexivity).
  assert (Hs1 : forall t nz R, t ∈ [1; 4] -> exProd t nz R -> handed K2p R) by (intros t nz R _ ->; split; [exact Hsh|exact I]).
  assert (Hs2 : forall t nz R, t ∈ [1; 4] -> exProd t nz R -> shape R /\ rows R <> 0 /\ nnz R <> 0) by (intros t nz R _ ->; repeat split; discriminate).
  assert (Hs3 : forall t nz R, t ∈ [1; 4] -> exProd t nz R -> handed K2p R /\ rows R <> 0 /\ nnz R <> 0) by (intros t nz R _ ->; repeat split; discriminate).
  intros R.
  destruct (C71_report Z Z 0%Z pickFresh false 0%Z Z.add Z.add enc4 (fun v => enc4 (Z.to_nat v)) 4 4 pickFresh_ok ltac:(reflexivity) ltac:(reflexivity) K2p exProd 2 3 [1; 4] ∅ ltac:(lia) ltac:(lia) ltac:(lia) Hex Hs1) as [H1 H2].
  split; [exact H1|]. split; [|split; [|split; [|exact Hsh]]].
  - intros r Hr. destruct (H2 r Hr) as (h' & ls & -> & _ & Hl).
    rewrite (C71_release_partial Z Z 0%Z pickFresh false 0%Z Z.add Z.add enc4 (fun v => enc4 (Z.to_nat v)) 4 4 pickFresh_ok ltac:(reflexivity) ltac:(reflexivity) K2p exProd 2 3 [1; 4] ∅ ltac:(lia) ltac:(lia) ltac:(lia) Hex Hs3 I h' ls Hr).
    exists ls. split; [reflexivity|]. inversion Hl as [|? l1 ? ? K1 Hl2]; subst. inversion Hl2 as [|? l2 ? ? K2 Hl3]; subst. inversion Hl3; subst.
    destruct K1 as (K1 & ? & ? & -> & _ & K1' & _), K2 as (K2 & ? & ? & -> & _ & K2' & _). cbn [fmap list_fmap]. rewrite K1, K1', K2, K2'. reflexivity.
  - intros h ls Hr. apply (C71_overwritten_refuted 0%Z pickFresh false 0%Z Z.add Z.add enc4 (fun v => enc4 (Z.to_nat v)) 4 4 pickFresh_ok ltac:(reflexivity) ltac:(reflexivity) exProd 2 3 [1; 4] ∅ ltac:(lia) ltac:(lia) ltac:(lia) Hex KOver ltac:(left; reflexivity) Hs2 h ls Hr).
  - intros h ls Hr. apply (C71_heap_refuted 0%Z pickFresh false 0%Z Z.add Z.add enc4 (fun v => enc4 (Z.to_nat v)) 4 4 pickFresh_ok ltac:(reflexivity) ltac:(reflexivity) exProd 2 3 [1; 4] ∅ ltac:(lia) ltac:(lia) ltac:(lia) Hex Hs2
      ltac:(intros t Ht; rewrite ?elem_of_cons, ?elem_of_nil in Ht; lia) h ls Hr).
Qed.
(** The same calls with a result that is assigned; and with one that has no entries. *)
Definition exNone : csr Z := mkCsr 2 2 0 [0;0;0] [] [].
Example C71_assigned_example :
  let R prod := run 0%Z pickFresh false 0%Z Z.add Z.add enc4 (fun v => enc4 (Z.to_nat v)) 4 4 KAssign prod 2 3 [1; 4] ∅ in
  (exists r, R exProd r) /\ (forall h ls, R exProd (Ok (h, ls)) -> h = ∅) /\
  (forall r, R (fun _ _ X => X = exNone) r <-> r = Err Uninit).
Proof.
  assert (Hw : wf exC) by prove_wf.
  assert (Hs : forall t nz R, t ∈ [1; 4] -> exProd t nz R -> handed KAssign R /\ rows R <> 0 /\ nnz R <> 0).
  { intros t nz R _ ->. split; [|split; discriminate]. split; [repeat split|]. split; [exact Hw|discriminate]. }
  intros R. split; [|split].
  - apply (C71_report Z Z 0%Z pickFresh false 0%Z Z.add Z.add enc4 (fun v => enc4 (Z.to_nat v)) 4 4 pickFresh_ok ltac:(reflexivity) ltac:(reflexivity) KAssign exProd 2 3 [1; 4] ∅ ltac:(lia) ltac:(lia) ltac:(lia)
      ltac:(intros; eexists; reflexivity) ltac:(intros t nz R' Ht HR; apply (Hs t nz R' Ht HR))).
  - intros h ls Hr. exact (C71_release_partial Z Z 0%Z pickFresh false 0%Z Z.add Z.add enc4 (fun v => enc4 (Z.to_nat v)) 4 4 pickFresh_ok ltac:(reflexivity) ltac:(reflexivity) KAssign exProd 2 3 [1; 4] ∅ ltac:(lia) ltac:(lia) ltac:(lia)
      ltac:(intros; eexists; reflexivity) Hs I h ls Hr).
  - apply C71_assigned_empty_refuted; [exact pickFresh_ok|lia|lia|intros; eexists; reflexivity|].
    intros nz X ->. split; [|split; [discriminate|split; [discriminate|reflexivity]]]. prove_wf.
Qed.
