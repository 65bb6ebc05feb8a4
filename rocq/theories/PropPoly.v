(** C29: the driver that mixes MSA and MCA (masked-spgemm-poly.h). *)
From Coq Require Import NArith ZArith.
From Verif Require Import MsaModel McaModel MemModel MemProofs WorkProofs DriverModel DriverStatements AlgModel AlgProofs PolyModel PolyProofs Examples PropDriver Assemble.
From Verif Require Import Base Spec.

(** The sizes fit into size_t: [sz] is the size of a value, [sE] that of an MCA entry, no mask row is
    longer than [mx]. *)
Definition poly_fits {V} (A B M : csr V) (sz sE : N) (mx : nat) : Prop :=
  (0 < sz)%N /\ (0 < sE)%N /\ (forall i, i < rows A -> length (row_cols M i) <= mx) /\
  ((N.of_nat (cols B) + 1) * (sz + 1) + (N.of_nat mx + 1) * sE + N.lcm sz sE + 8 < 2 ^ 64)%N.

(** Row [i] gives some work: the mask has an entry there and some entry of A meets a non-empty row of B. *)
Definition has_work {V} (A B M : csr V) (i : nat) : Prop :=
  row_cols M i <> [] /\ exists k a, (k, a) ∈ row_entries A i /\ row_entries B k <> [].

Lemma has_work_iff {V} (A B M : csr V) i : has_work A B M i <-> nprodsM A B M i <> 0.
Proof.
  unfold has_work, nprodsM. destruct (row_cols M i) as [|c l]; [split; [intros [H _]; congruence|lia]|].
  rewrite <- touched_length. unfold touched_cols. split.
  - intros [_ (k & a & Hin & Hne)] H. apply length_zero_iff_nil in H.
    assert (Hx : forall x, x ∉ mjoin ((fun ka => row_cols B (fst ka)) <$> row_entries A i)) by (intros x Hx; rewrite H in Hx; inversion Hx).
    destruct (row_entries B k) as [|[j b] r] eqn:E; [congruence|]. apply (Hx j), elem_of_list_join.
    exists (row_cols B k). split; [unfold row_cols; rewrite E; left|]. apply elem_of_list_fmap. exists (k, a). auto.
  - intros H. split; [discriminate|].
    destruct (mjoin _) as [|x r] eqn:E; [simpl in H; lia|]. assert (Hx : x ∈ x :: r) by left. rewrite <- E in Hx.
    apply elem_of_list_join in Hx as (l' & Hx & Hl). apply elem_of_list_fmap in Hl as ((k & a) & -> & Hin).
    exists k, a. split; [exact Hin|]. cbn in Hx. unfold row_cols in Hx. intros En. rewrite En in Hx. inversion Hx.
Qed.

(** C29 (refuted): whenever any row gives work, for every number of threads, some run of this driver
    reads a cell of rowNvals that nobody has written.  (The driver stores rowNvals only for rows
    without work.)  So it produces a defined result only when the product is empty. *)
Theorem C29_poly_refuted :
  forall V (mul add : V -> V -> V) (A B M : csr V) (sz sE : N) (mx nt : nat),
  compatible A B M -> sorted_rows B -> sorted_rows M -> poly_fits A B M sz sE mx -> 1 <= nt ->
  (exists i, i < rows A /\ has_work A B M i) ->
  forall (iA iB iM iC : nat) (sc : scratch) (s : gmap nat (obj V)),
    s !! iA = Some (OMat A) -> s !! iB = Some (OMat B) -> s !! iM = Some (OMat M) ->
    poly_faults mul add sz sE iA iB iM iC nt sc s Uninit.
Proof.
  intros V mul add A B M sz sE mx nt HC HB HM (H1 & H2 & H3 & H4) Hnt (i & Hi & Hw) iA iB iM iC sc s EA EB EM.
  eapply poly_uninit with (mx := mx); eauto; [lia|]. exists i. split; [exact Hi|]. exact (proj1 (has_work_iff A B M i) Hw).
Qed.
Print Assumptions C29_poly_refuted.

Example C29_poly_refuted_example : forall sc,
  poly_faults Z.mul Z.add 8 16 0 1 2 3 2 sc {[0 := OMat exA; 1 := OMat exB; 2 := OMat exM]} Uninit.
Proof.
  intros sc. eapply C29_poly_refuted with (mx := 3); [exact ex_compat|exact exB_sorted|exact exM_sorted| |lia| |reflexivity|reflexivity|reflexivity].
  - split; [reflexivity|]. split; [reflexivity|]. split; [apply ex_rows; lia|reflexivity].
  - exists 0. split; [cbn; lia|]. split; [discriminate|]. exists 0, 2%Z. split; [vm_compute; left|discriminate].
Qed.

(** C29, the part that holds: without work in any row the driver ends, under every schedule, with the
    (empty) product. *)
Theorem C29_poly_no_work_partial :
  forall V (mul add : V -> V -> V) (A B M : csr V) (sz sE : N) (mx nt : nat),
  compatible A B M -> sorted_rows B -> sorted_rows M -> 1 <= rows A -> poly_fits A B M sz sE mx -> 1 <= nt ->
  (forall i, i < rows A -> ~ has_work A B M i) ->
  exists C, wf C /\ rows C = rows A /\ cols C = cols B /\ nnz C = 0 /\
    forall (iA iB iM iC : nat) (sc : scratch) (s : gmap nat (obj V)),
    s !! iA = Some (OMat A) -> s !! iB = Some (OMat B) -> s !! iM = Some (OMat M) ->
    poly_always mul add sz sE iA iB iM iC nt sc s (<[iC := OMat C]> s).
Proof.
  intros V mul add A B M sz sE mx nt HC HB HM Hr (H1 & H2 & H3 & H4) Hnt Hw.
  assert (Hz : forall i, i < rows A -> nprodsM A B M i = 0).
  { intros i Hi. destruct (Nat.eq_dec (nprodsM A B M i) 0) as [E|E]; [exact E|]. apply has_work_iff in E. destruct (Hw i Hi E). }
  exists (assemble (spec_row mul add A B M) (rows A) (cols B)). split; [|split; [reflexivity|split; [reflexivity|split]]].
  - apply assemble_wf. intros i c v Hi Hin. rewrite (plain_zero mul add A B M i (Hz i Hi)) in Hin. inversion Hin.
  - cbn [assemble nnz]. assert (Hp : forall k, k <= rows A -> pre (spec_row mul add A B M) k = 0).
    { induction k as [|k IH]; [reflexivity|]. intros Hk. rewrite pre_S, IH, (plain_zero mul add A B M k (Hz k ltac:(lia))) by lia. reflexivity. }
    apply Hp. lia.
  - intros iA iB iM iC sc s EA EB EM. apply poly_no_work with (mx := mx); auto.
Qed.
Print Assumptions C29_poly_no_work_partial.

(** A mask without entries. *)
Example C29_poly_no_work_example :
  let M := mkCsr 3 4 0 [0;0;0;0] [] ([] : list Z) in
  compatible exA exB M /\ sorted_rows M /\ poly_fits exA exB M 8 16 0 /\ forall i, i < rows exA -> ~ has_work exA exB M i.
Proof.
  cbn zeta. split; [|split; [|split]].
  - constructor; try (apply ex_compat); try reflexivity. prove_wf.
  - intros i Hi. cbn in Hi. do 3 (destruct i as [|i]; [vm_compute; constructor|]). lia.
  - split; [reflexivity|]. split; [reflexivity|]. split; [|reflexivity]. intros i Hi. cbn in Hi. do 3 (destruct i as [|i]; [cbn; lia|]). lia.
  - intros i Hi [H _]. cbn in Hi. do 3 (destruct i as [|i]; [cbn in H; congruence|]). lia.
Qed.

(** C29, a second defect: the driver hands the same buffer to both accumulators.  Whenever B has a
    column and the thread has a non-empty mask row ([pM p]: the length of the longest), some byte
    belongs both to the MSA's values or states and to the MCA's entries, wherever the buffer is. *)
Theorem C29_poly_shared_bytes :
  forall V (A B M : csr V) (sz sE : N) (mx : nat) (p : params) (sc : scratch) (t : nat),
  poly_fits A B M sz sE mx -> pIdx p = cols B -> 1 <= cols B -> 1 <= pM p <= mx ->
  let b := allocBuf sc t (polyReq sz sE p) in
  exists (p1 : placed (msa V)) (p2 : placed (mca V)) (i : N), polySet sz sE p b = Ok (p1, p2) /\ (i < b_size b)%N /\
    (i < sz * N.of_nat (cols B) \/ p_off p1 <= i < p_off p1 + N.of_nat (cols B))%N /\
    (p_off p2 <= i < p_off p2 + sE * N.of_nat (pM p))%N.
Proof.
  intros V A B M sz sE mx p sc t (H1 & H2 & H3 & H4) Hi Hc Hm b.
  pose proof (poly_req A B M sz sE mx H1 H2 H3 H4 p Hi (proj2 Hm)) as Hreq.
  assert (Hf : MemProofs.fresh (polyReq sz sE p) b).
  { unfold b. rewrite Hreq. apply DriverProofs.allocBuf_fresh, (poly_al A B M sz sE mx H1 H2 H3 H4). }
  destruct (poly_set A B M sz sE mx H1 H2 H3 H4 p b Hi (proj2 Hm) Hf) as (p1 & p2 & Hs & _ & _ & Q1 & Q2 & Q3).
  destruct Hf as (_ & Hsz & _). rewrite Hreq in Hsz. cbn [fst] in Hsz.
  exists p1, p2. set (c := N.of_nat (cols B)) in *. set (m := N.of_nat (pM p)) in *.
  assert (1 <= c)%N by (unfold c; lia). assert (1 <= m)%N by (unfold m; lia). clearbody c m.
  destruct (N.max_spec (c * (1 + sz)) (m * sE)) as [[Hlt E]|[Hge E]]; rewrite E in Hsz.
  - exists 0%N. split; [exact Hs|]. nia.
  - exists (p_off p2). split; [exact Hs|]. nia.
Qed.
Print Assumptions C29_poly_shared_bytes.
Example C29_poly_shared_bytes_example : poly_fits exA exB exM 8 16 3 /\ 1 <= cols exB /\ 1 <= 3 <= 3.
Proof. split; [|cbn; lia]. split; [reflexivity|]. split; [reflexivity|]. split; [apply ex_rows; lia|reflexivity]. Qed.
