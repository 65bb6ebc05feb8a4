(** Hash results in the form used by the property file. *)
From stdpp Require Import gmap.
From Verif Require Import Base Spec BaseProofs ComplProofs HashModel HashTableProofs HashProofs.

Section St.
Context {V : Type} (w : N) (mul add : V -> V -> V).

Lemma st_hash_numeric (A B M : csr V) row (acc : hash V) dn cap capreq :
  compatible A B M -> row < rows A -> NoDup (row_cols M row) ->
  hash_ok acc -> fits w capreq -> adjustSize w capreq = Ok (length (h_tab acc)) ->
  length (row_cols M row) <= capreq ->
  length dn + length (spec_row mul add A B M row) <= cap ->
  exists acc', hashNumericRow w mul add A B M row acc (mkOut dn cap) =
      Ok (acc', mkOut (dn ++ spec_row mul add A B M row) cap) /\
    hash_ok acc' /\ length (h_tab acc') = length (h_tab acc).
Proof. intros. apply (hashNumericRow_correct w mul add A B M row acc (mkOut dn cap) capreq); auto. Qed.

Lemma st_hash_numeric_C (sorted : bool) (A B M : csr V) row flops (acc : hash V) dn cap capreq :
  compatible A B M -> row < rows A ->
  hash_ok acc -> fits w capreq -> adjustSize w capreq = Ok (length (h_tab acc)) ->
  length (compl_cols A B M row) <= flops -> length (row_cols M row) + flops <= capreq ->
  length dn + length (compl_cols A B M row) <= cap ->
  exists acc' l, hashNumericRowC w mul add sorted A B M row flops acc (mkOut dn cap) =
      Ok (acc', mkOut (dn ++ l) cap) /\
    is_compl_row mul add A B M row l /\
    length l = length (compl_cols A B M row) /\
    (if sorted then StronglySorted lt (fst <$> l) else fst <$> l = compl_cols A B M row) /\
    hash_ok acc' /\ length (h_tab acc') = length (h_tab acc).
Proof.
  intros.
  destruct (hashNumericRowC_correct w mul add sorted A B M row flops acc (mkOut dn cap) capreq) as (acc' & H' & Hok & Hl); auto.
  exists acc', (crow mul add sorted A B M row). split; [exact H'|]. split; [apply crow_is_compl|].
  split; [apply crow_length|]. split; [|auto].
  destruct sorted; [apply crow_sorted|exact (crow_keys mul add false A B M row)].
Qed.
End St.

Theorem adjustSize_all w n : fits w n ->
  exists k, adjustSize w n = Ok (2 ^ k) /\ 16 <= 2 ^ k /\ 4 * (n + 1) <= 2 ^ k /\
    (2 ^ k = 16 \/ 2 ^ k < 8 * (n + 1)) /\
    forall m s, m <= n -> adjustSize w m = Ok s -> s <= 2 ^ k.
Proof.
  intros Hf. destruct (adjustSize_spec w n Hf) as (k & Hk & H4 & _ & Hn & Hor).
  exists k. split; [exact Hk|]. split; [apply (pow2_le_mono 4 k H4)|]. split; [exact Hn|]. split; [exact Hor|].
  intros m s Hm Hs. eapply adjustSize_mono; eauto.
Qed.

(** findIdxForce on an absent key never ends. *)
Theorem probeForce_absent {V} (t : list (hent V)) kk key : 2 ^ kk <= length t ->
  (forall i e, t !! i = Some e -> hk e <> Some key) ->
  forall fuel hv, hv < 2 ^ kk -> probeForce fuel t (2 ^ kk) key hv = Err OutOfFuel.
Proof.
  intros Hl Habs. induction fuel as [|fuel IH]; intros hv Hhv; [reflexivity|]. cbn [probeForce].
  destruct (lookup_lt_is_Some_2 t hv) as [e He]; [lia|]. rewrite (get_Some _ _ _ He), bind_Ok.
  rewrite bool_decide_eq_false_2 by (eapply Habs; eauto). apply IH.
  pose proof (hnext_rel kk hv Hhv). lia.
Qed.

Lemma st_hash_symbolic_C {V} (w : N) (A B M : csr V) row flops (acc : hash V) capreq :
  compatible A B M -> row < rows A -> NoDup (row_cols M row) ->
  hash_ok acc -> fits w capreq -> adjustSize w capreq = Ok (length (h_tab acc)) ->
  length (first_touch (touched_cols A B row)) <= flops ->
  length (row_cols M row) + flops <= capreq ->
  exists acc', hashSymbolicRowC w A B M row flops acc = Ok (acc', Z.of_nat (length (compl_cols A B M row))) /\
    hash_ok acc' /\ length (h_tab acc') = length (h_tab acc).
Proof. apply (hashSymbolicRowC_correct w (fun a _ => a) (fun a _ => a)). Qed.
