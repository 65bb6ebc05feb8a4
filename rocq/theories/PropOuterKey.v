(** C51, finding: the sorting key of OuterSpGEMM. *)
From stdpp Require Import numbers.
From Coq Require Import NArith.
From Verif Require Import BaseProofs ConcProofs ScanProofs Assemble SortProofs RadixProofs OuterModel OuterProofs PropOuter.
From Verif Require Import Base Spec.

(** The sorting key (137) has 12 bits for the row within its block and 20 for the column.  With more than 4096 rows to a block, here rows 0 and
    4096 of a block of 4097, entries of different rows are mixed: row 0 of C has column 0 twice and lacks column 1. *)
Definition kcA : csc nat := mkCsc 4097 1 2 [0; 2] [0; 4096] [1; 1].
Definition kcB : csr nat := mkCsr 1 2 2 [0; 2] [0; 1] [1; 1].
Definition kcS : gmap nat (obj nat) := {[ 0 := OCsc kcA; 1 := OMat kcB; 2 := OMat (mkCsr 0 0 0 [] [] []) ]}.

Lemma kcA_wf : wf_csc kcA.
Proof.
  unfold wf_csc, csc_tr, kcA; cbn. constructor; try reflexivity; cbn [rowptr colids values rows cols nnz].
  - intros [|[|i]] a b Ha Hb; cbn in Ha, Hb; [|discriminate|discriminate]. injection Ha as <-. injection Hb as <-. lia.
  - intros [|[|p]] c Hp; [injection Hp as <-; lia|injection Hp as <-|discriminate]. apply Nat.leb_le. vm_compute. reflexivity.
Qed.
Lemma kcB_wf : wf kcB.
Proof.
  constructor; try reflexivity; cbn [kcB rowptr colids values rows cols nnz].
  - intros [|[|i]] a b Ha Hb; cbn in Ha, Hb; [|discriminate|discriminate]. injection Ha as <-. injection Hb as <-. lia.
  - intros [|[|p]] c Hp; [injection Hp as <-; lia|injection Hp as <-; lia|discriminate].
Qed.
Lemma kc_args : outer_args kcA kcB 1 1 1.
Proof. constructor; try apply kcA_wf; try apply kcB_wf; try reflexivity; split; lia || reflexivity. Qed.

(** The products, and every order that they may come in. *)
Definition kcP : list (nat * nat * nat) := [(0, 0, 1); (0, 1, 1); (4096, 0, 1); (4096, 1, 1)].
Definition kcOrders : list (list (nat * nat * nat)) :=
  a ← kcP; b ← kcP; c ← kcP; d ← kcP; [[a; b; c; d]].
Definition kcSorted (buf : list (option (nat * nat * nat))) (g : list (nat * nat * nat)) : option (list (nat * nat * nat)) :=
  match sortBlock Nat.add (key2 4097) buf 4 (Some <$> g) with Ok (n, blk) => if n =? 4 then mapM id blk else None | Err _ => None end.
Definition kcCheck (buf : list (option (nat * nat * nat))) (g : list (nat * nat * nat)) : bool :=
  negb (bool_decide (NoDup g)) ||
  match kcSorted buf g with
  | Some M => bool_decide ((fun x => x.1.2) <$> M = [0; 0; 1; 1]) && forallb (fun x => x.1.1 <=? 4096) M && (length (filter (fun x : nat * nat * nat => x.1.1 = 0) M) =? 2)
  | None => false
  end.
Lemma kc_all x0 x1 x2 x3 : forallb (kcCheck [x0; x1; x2; x3]) kcOrders = true.
Proof. vm_compute. reflexivity. Qed.
Lemma kc_sort g buf : g ≡ₚ kcP -> length buf = 4 -> exists M, sortBlock Nat.add (key2 4097) buf 4 (Some <$> g) = Ok (4, Some <$> M) /\
  (fun x => x.1.2) <$> M = [0; 0; 1; 1] /\ (forall x, x ∈ M -> x.1.1 <= 4096) /\ cntR 0 M = 2.
Proof.
  intros Hg Hb. destruct buf as [|x0 [|x1 [|x2 [|x3 [|]]]]]; try discriminate.
  assert (HN : NoDup g) by (rewrite Hg; refine (bool_decide_eq_true_1 (NoDup kcP) _); vm_compute; reflexivity).
  assert (Hin : g ∈ kcOrders).
  { assert (Hl : length g = 4) by (rewrite Hg; reflexivity). destruct g as [|a [|b [|c [|d [|]]]]]; try discriminate.
    assert (HH : forall x, x ∈ [a; b; c; d] -> x ∈ kcP) by (intros x Hx; rewrite <- Hg; exact Hx).
    unfold kcOrders. apply elem_of_list_bind. exists a. split; [|apply HH; left]. apply elem_of_list_bind. exists b. split; [|apply HH; right; left].
    apply elem_of_list_bind. exists c. split; [|apply HH; do 2 right; left]. apply elem_of_list_bind. exists d. split; [left|apply HH; do 3 right; left]. }
  pose proof (kc_all x0 x1 x2 x3) as Hall. rewrite forallb_forall in Hall. specialize (Hall g (proj1 (elem_of_list_In _ _) Hin)).
  unfold kcCheck in Hall. rewrite bool_decide_true in Hall by exact HN. cbn [negb orb] in Hall.
  unfold kcSorted in Hall. destruct (sortBlock Nat.add (key2 4097) [x0; x1; x2; x3] 4 (Some <$> g)) as [[n blk]|]; [|discriminate].
  destruct (Nat.eqb_spec n 4) as [->|]; [|discriminate]. destruct (mapM id blk) as [M|] eqn:EM; [|discriminate].
  apply andb_true_iff in Hall as [Hall H3]. apply andb_true_iff in Hall as [H1 H2]. apply bool_decide_eq_true_1 in H1. apply Nat.eqb_eq in H3. rewrite forallb_forall in H2.
  exists M. split; [|split; [exact H1|split; [|exact H3]]].
  - do 2 f_equal. apply mapM_Some_1 in EM. clear -EM. induction EM as [|x y l k E _ IH]; [reflexivity|]. rewrite fmap_cons, <- IH. unfold id in E. rewrite E. reflexivity.
  - intros x Hx. apply Nat.leb_le, H2, elem_of_list_In, Hx.
Qed.

Theorem C51_many_rows_per_block_refuted :
  ~ forall V (mul add : V -> V -> V) (A : csc V) (B : csr V) (nb bw nth top nts iA iB iC : nat) (s : gmap nat (obj V)),
    outer_args A B nb bw nth -> (N.of_nat (c_rows A + 1) < 2 ^ 17)%N -> (N.of_nat (cols B) <= 2 ^ 20)%N ->
    (forall b, b < nb -> (N.of_nat (blockProducts A B (blockRows (c_rows A) nb) b) < 2 ^ 27)%N) -> outer_objs A B iA iB iC s -> (iC = iB -> nnz B <> 0) ->
    forall o, Outer_outcome mul add top nts nth iA iB iC nb bw s o -> outer_right mul add A B iC s o.
Proof.
  intros H.
  assert (ER : rowsPerBlock (c_rows kcA) 1 = Ok 4097) by (vm_compute; reflexivity).
  assert (Hblk : forall r, r < c_rows kcA -> r / 4097 < 1) by (intros r Hr; change (c_rows kcA) with 4097 in Hr; apply Nat.div_lt_upper_bound; lia).
  assert (EP : prods Nat.mul kcA kcB = kcP) by (vm_compute; reflexivity).
  assert (EPb : ofBlk (fun r => (r / 4097)%nat) 0 (prods Nat.mul kcA kcB) = kcP) by (vm_compute; reflexivity).
  assert (HB1 : forall b, b < 1 -> (N.of_nat (length (ofBlk (fun r => (r / 4097)%nat) b (prods Nat.mul kcA kcB))) < 2 ^ 27)%N).
  { intros [|b] Hb; [|lia]. rewrite EPb. reflexivity. }
  assert (Hreset : exists s1 lost, resetCsr 0 1 2 kcS = Ok (s1, c_rows kcA, cols kcB, lost) /\ forall o, <[2 := o]> s1 = <[2 := o]> kcS).
  { eapply (resetCsr_ok kcA kcB 0 1 2 kcS); try reflexivity. discriminate. }
  destruct Hreset as (s1 & lost & Hreset & Hs1).
  destruct (outer_front Nat.mul Nat.add kcA kcB kcA_wf kcB_wf eq_refl 1 1 4097 ltac:(lia) ltac:(reflexivity) ltac:(lia) ltac:(reflexivity) Hblk 0 1 1 0 1 2 kcS ER ltac:(lia) eq_refl eq_refl ltac:(reflexivity) HB1)
    as (mx & [(b & Hb & Emx) _] & _ & G & HG & HE).
  assert (b = 0) as -> by lia. rewrite EPb in Emx. cbn in Emx. subst mx.
  change (seq 0 1) with [0] in HG. cbn [fmap list_fmap] in HG. rewrite EPb in HG. inversion HG as [|g ? G' ? Hg HG' E1 E2]; subst. inversion HG'; subst. clear HG HG'.
  assert (HS : forall bufs : nat -> list (option (nat * nat * nat)), (forall b, length (bufs b) = 4) -> exists M, sortsTo Nat.add kcA 1 (fun r => (r / 4097)%nat) (key2 4097) bufs [g] [M] /\
    (fun x => x.1.2) <$> M = [0; 0; 1; 1] /\ cntR 0 M = 2).
  { intros bufs Hbufs. destruct (kc_sort g (bufs 0) Hg (Hbufs 0)) as (M & EM & M1 & M2 & M3). exists M. split; [|auto].
    assert (LM : length M = 4) by (rewrite <- (fmap_length (fun x : nat * nat * nat => x.1.2)), M1; reflexivity).
    exists [Some <$> M]. split.
    - assert (Lg : length g = 4) by (rewrite Hg; reflexivity).
      change ((fun l : list (nat * nat * nat) => Some <$> l) <$> [g]) with [Some <$> g]. change (length <$> [g]) with [length g]. change (length <$> [M]) with [length M]. rewrite Lg, LM.
      change ((r <- ('(n, blk) <- sortBlock Nat.add (key2 4097) (bufs 0) 4 (Some <$> g) ;; Ok ([n], [blk])) ;; Ok r) = Ok ([4], [Some <$> M])). rewrite EM. reflexivity.
    - split; [constructor; [|constructor]|split; [reflexivity|]].
      + split; [rewrite fmap_length; lia|]. intros q x Hq. rewrite list_lookup_fmap, Hq. reflexivity.
      + intros [|b] M' x HM Hx; [|discriminate]. injection HM as <-. specialize (M2 x Hx). split; [apply Nat.div_small; lia|change (c_rows kcA) with 4097; lia]. }
  destruct (rest_sorted Nat.add kcA kcB eq_refl 1 (fun row => Ok (blockId 4097 row)) (fun r => (r / 4097)%nat) (key2 4097) ltac:(reflexivity) Hblk 0 1 0 1 2 kcS s1 (cols kcB) lost Hreset (c_rows kcA + 1 + 1 + 1 * 4) 4 [g]) as [_ (bufs & Ms & Hbufs & HMs & HX)].
  { intros bufs Hbufs. destruct (HS bufs Hbufs) as (M & HM & _). eauto. }
  destruct (HS bufs Hbufs) as (M & HM & M1 & M2).
  rewrite <- (sortsTo_det Nat.add kcA 1 (fun r => (r / 4097)%nat) (key2 4097) bufs [g] [M] Ms HM HMs) in *. clear HM HMs Ms.
  set (o := Ok (<[2 := OMat (mkCsr (c_rows kcA) (cols kcB) (length (mjoin [M])) (psum 0 Nat.add (outNbr (c_rows kcA) [M]) <$> seq 0 (c_rows kcA + 1)) (outIds [M]) (outVals [M]))]> s1,
    lost + (c_rows kcA + 1 + 1 + 1 * 4)) : res (gmap nat (obj nat) * nat)).
  assert (Ho : Outer_outcome Nat.mul Nat.add 0 1 1 0 1 2 1 1 kcS o).
  { apply HE, HX; [left; exists 0; exact I|]. right. eexists. split; [|reflexivity]. apply scanned_iff; [lia| | |reflexivity|reflexivity].
    - unfold outNbr. rewrite fmap_length, seq_length. lia.
    - cbn [length]. rewrite replicate_length. lia. }
  assert (Hobj : outer_objs kcA kcB 0 1 2 kcS) by (split; [reflexivity|split; [reflexivity|eexists; reflexivity]]).
  assert (Hbp : forall b, b < 1 -> (N.of_nat (blockProducts kcA kcB (blockRows (c_rows kcA) 1) b) < 2 ^ 27)%N).
  { intros [|b] Hb'; [|lia]. vm_compute. reflexivity. }
  destruct (H nat Nat.mul Nat.add kcA kcB 1 1 1 0 1 0 1 2 kcS kc_args ltac:(vm_compute; reflexivity) ltac:(vm_compute; discriminate) Hbp Hobj ltac:(discriminate) o Ho)
    as (C & lost' & EC & _ & _ & _ & HC).
  unfold o in EC. apply (f_equal (fun r => match r with Ok (x, _) => x !! 2 | Err _ => None end)) in EC. cbv beta iota in EC. rewrite !lookup_insert in EC.
  apply (f_equal (fun x => match x with Some (OMat c) => c | _ => kcB end)) in EC. cbv beta iota in EC. subst C.
  specialize (HC 0 ltac:(change (c_rows kcA) with 4097; lia)). destruct HC as (HC & _).
  unfold row_entries in HC. cbn [rowptr colids values] in HC. rewrite list_lookup_fmap, lookup_seq_lt in HC by lia. rewrite list_lookup_fmap, lookup_seq_lt in HC by (change (c_rows kcA) with 4097; lia).
  cbn [fmap option_fmap option_map] in HC. change (0 + 0) with 0 in HC. change (0 + (0 + 1)) with 1 in HC.
  assert (E1 : psum 0 Nat.add (outNbr (c_rows kcA) [M]) 1 = 2).
  { rewrite (psum_S 0 Nat.add _ 0 2); [reflexivity|]. unfold outNbr. rewrite list_lookup_fmap, lookup_seq_lt by (change (c_rows kcA) with 4097; lia).
    cbn [fmap option_fmap option_map]. rewrite mjoin_cons. change (mjoin []) with (@nil (nat * nat * nat)). rewrite app_nil_r. change (0 + 0) with 0. rewrite M2. reflexivity. }
  rewrite E1 in HC. change (psum 0 Nat.add (outNbr (c_rows kcA) [M]) 0) with 0 in HC. unfold outIds, outVals in HC. rewrite mjoin_cons in HC. change (mjoin []) with (@nil (nat * nat * nat)) in HC.
  rewrite app_nil_r, M1 in HC. destruct M as [|y0 [|y1 M]]; try discriminate. cbn in HC. inversion HC as [|? ? _ Hlt]. inversion Hlt as [|? ? Hlt2]. lia.
Qed.
Print Assumptions C51_many_rows_per_block_refuted.
