(** C03, C04, C12 (hash), C20, C21, C30 (hash, MSA): the hash accumulator and its row kernels. *)
From stdpp Require Import gmap.
From Verif Require Import Base Spec MsaModel HashModel HashTableProofs HashProofs HashOps HashStatements Examples.

(** C03: the hash kernel appends exactly the masked product row, for any index width [w] and any
    table whose capacity was computed by the constructor for at least the mask row's length. *)
Theorem C03_hash_numeric_row :
  forall V (w : N) (mul add : V -> V -> V) (A B M : csr V) row (acc : hash V) dn cap capreq,
  compatible A B M -> row < rows A -> NoDup (row_cols M row) ->
  hash_ok acc -> fits w capreq -> adjustSize w capreq = Ok (length (h_tab acc)) ->
  length (row_cols M row) <= capreq ->
  length dn + length (spec_row mul add A B M row) <= cap ->
  exists acc', hashNumericRow w mul add A B M row acc (mkOut dn cap) =
      Ok (acc', mkOut (dn ++ spec_row mul add A B M row) cap) /\
    hash_ok acc' /\ length (h_tab acc') = length (h_tab acc).
Proof. exact @st_hash_numeric. Qed.
Print Assumptions C03_hash_numeric_row.

Ltac prove_fits := split; [lia|vm_compute; discriminate].

(** Mask columns 0, 16 and 32 all hash to slot 0 of the 16-slot table. *)
Definition colM : csr Z := mkCsr 1 40 3 [0;3] [0;16;32] [1;1;1]%Z.
Definition colA : csr Z := mkCsr 1 2 2 [0;2] [0;1] [2;3]%Z.
Definition colB : csr Z := mkCsr 2 40 5 [0;3;5] [16;32;33;16;17] [5;1;9;7;8]%Z.
Example C03_example :
  compatible exA exB exM /\ hash_ok (hash_fresh (V:=Z) 16) /\ fits 32 3 /\
  adjustSize 32 3 = Ok (length (h_tab (hash_fresh (V:=Z) 16))) /\
  hslot 32 16 16 = hslot 32 16 32 /\
  (acc' <- hashNumericRow 32 Z.mul Z.add colA colB colM 0 (hash_fresh 16) (mkOut [] 2) ;; Ok (snd acc')) =
    Ok (mkOut [16 ~> 31; 32 ~> 2] 2).
Proof.
  split; [exact ex_compat|]. split; [apply hash_fresh_ok|]. split; [prove_fits|].
  split; [vm_compute; reflexivity|]. split; vm_compute; reflexivity.
Qed.

(** C12 (hash, plain mask). *)
Theorem C12_hash_symbolic_row :
  forall V (w : N) (mul add : V -> V -> V) (A B M : csr V) row (acc : hash V) capreq,
  compatible A B M -> row < rows A -> NoDup (row_cols M row) ->
  hash_ok acc -> fits w capreq -> adjustSize w capreq = Ok (length (h_tab acc)) ->
  length (row_cols M row) <= capreq ->
  exists acc', hashSymbolicRow w A B M row acc = Ok (acc', length (spec_row mul add A B M row)) /\
    hash_ok acc' /\ length (h_tab acc') = length (h_tab acc).
Proof. exact @hashSymbolicRow_correct. Qed.
Print Assumptions C12_hash_symbolic_row.

Example C12_hash_example :
  (r <- hashSymbolicRow 32 colA colB colM 0 (hash_fresh 16) ;; Ok (snd r)) = Ok 2.
Proof. vm_compute. reflexivity. Qed.

(** C04: complemented mask; [flops] may be the one-phase flop count or the exact count of the
    two-phase driver.  No distinctness of the mask row is needed. *)
Theorem C04_hash_numeric_row_complemented :
  forall V (w : N) (mul add : V -> V -> V) (sorted : bool) (A B M : csr V) row flops (acc : hash V) dn cap capreq,
  compatible A B M -> row < rows A ->
  hash_ok acc -> fits w capreq -> adjustSize w capreq = Ok (length (h_tab acc)) ->
  length (compl_cols A B M row) <= flops -> length (row_cols M row) + flops <= capreq ->
  length dn + length (compl_cols A B M row) <= cap ->
  exists acc' l, hashNumericRowC w mul add sorted A B M row flops acc (mkOut dn cap) =
      Ok (acc', mkOut (dn ++ l) cap) /\
    is_compl_row mul add A B M row l /\
    length l = length (compl_cols A B M row) /\
    (if sorted then StronglySorted lt (fst <$> l) else fst <$> l = compl_cols A B M row) /\
    hash_ok acc' /\ length (h_tab acc') = length (h_tab acc).
Proof. exact @st_hash_numeric_C. Qed.
Print Assumptions C04_hash_numeric_row_complemented.

(** B's columns 32 and 0 come in that order and collide with mask column 16. *)
Definition colM2 : csr Z := mkCsr 1 40 2 [0;2] [16;17] [1;1]%Z.
Definition colB2 : csr Z := mkCsr 2 40 6 [0;3;6] [32;16;33;0;16;32] [5;1;9;7;8;1]%Z.
Example C04_example :
  adjustSize 32 6 = Ok 32 /\ fits 32 6 /\ compl_cols colA colB2 colM2 0 = [32;33;0] /\
  (acc' <- hashNumericRowC 32 Z.mul Z.add false colA colB2 colM2 0 3 (hash_fresh 32) (mkOut [] 3) ;; Ok (snd acc')) =
    Ok (mkOut [32 ~> 13; 33 ~> 18; 0 ~> 21] 3) /\
  (acc' <- hashNumericRowC 32 Z.mul Z.add true colA colB2 colM2 0 4 (hash_fresh 32) (mkOut [] 3) ;; Ok (snd acc')) =
    Ok (mkOut [0 ~> 21; 32 ~> 13; 33 ~> 18] 3).
Proof. split; [vm_compute; reflexivity|]. split; [prove_fits|]. split; [|split]; vm_compute; reflexivity. Qed.

(** C12 (hash, complemented mask). *)
Theorem C12_hash_symbolic_row_complemented :
  forall V (w : N) (A B M : csr V) row flops (acc : hash V) capreq,
  compatible A B M -> row < rows A -> NoDup (row_cols M row) ->
  hash_ok acc -> fits w capreq -> adjustSize w capreq = Ok (length (h_tab acc)) ->
  length (first_touch (touched_cols A B row)) <= flops ->
  length (row_cols M row) + flops <= capreq ->
  exists acc', hashSymbolicRowC w A B M row flops acc = Ok (acc', Z.of_nat (length (compl_cols A B M row))) /\
    hash_ok acc' /\ length (h_tab acc') = length (h_tab acc).
Proof. exact @st_hash_symbolic_C. Qed.
Print Assumptions C12_hash_symbolic_row_complemented.

Example C12_hash_example_complemented :
  adjustSize 32 8 = Ok 64 /\ length (first_touch (touched_cols colA colB2 0)) = 4 /\
  (r <- hashSymbolicRowC 32 colA colB2 colM2 0 6 (hash_fresh 64) ;; Ok (snd r)) = Ok 3%Z.
Proof. split; [|split]; vm_compute; reflexivity. Qed.

(** C20: any operation sequence that never holds more than the [n] keys the table was sized for
    gives, operation by operation, the answers of a finite map; every operation terminates. *)
Theorem C20_hash_refines_finite_map :
  forall V (w : N) (acc : hash V) capreq n ops,
  hash_clean acc -> fits w capreq -> adjustSize w capreq = Ok (length (h_tab acc)) -> n <= capreq ->
  bounded n ∅ ops ->
  exists acc1 acc2, resize w acc n = Ok acc1 /\ hrun w acc1 ops = Ok (acc2, snd (mrun ∅ ops)) /\
    length (h_tab acc2) = length (h_tab acc).
Proof. exact @hash_refines_map. Qed.
Print Assumptions C20_hash_refines_finite_map.

(** Three colliding keys, an erase that has to shift entries back, and reuse. *)
Definition c20ops : list (hop Z) :=
  [OInsert 0; OInsert 16; OInsert 32; OStore 32 7%Z; OErase 0; OFind 16; OFind 32; OFind 0; OInsert 32;
   OErase 5; OReset; OFind 16].
Example C20_example : bounded 3 ∅ c20ops /\
  (a <- resize 32 (hash_fresh 16) 3 ;; r <- hrun 32 a c20ops ;; Ok (snd r)) =
    Ok [RBool true; RBool true; RBool true; RBool true; RBool true; RLook (Some None); RLook (Some (Some 7%Z));
        RLook None; RBool false; RBool false; RUnit; RLook None] /\
  snd (mrun ∅ c20ops) =
    [RBool true; RBool true; RBool true; RBool true; RBool true; RLook (Some None); RLook (Some (Some 7%Z));
        RLook None; RBool false; RBool false; RUnit; RLook None].
Proof.
  split; [vm_compute; repeat split; lia|]. split; vm_compute; reflexivity.
Qed.

(** C21: sizes are powers of two with room, and monotone. *)
Theorem C21_adjustSize : forall (w : N) n, fits w n ->
  exists k, adjustSize w n = Ok (2 ^ k) /\ 16 <= 2 ^ k /\ 4 * (n + 1) <= 2 ^ k /\
    (2 ^ k = 16 \/ 2 ^ k < 8 * (n + 1)) /\
    forall m s, m <= n -> adjustSize w m = Ok s -> s <= 2 ^ k.
Proof. exact adjustSize_all. Qed.
Print Assumptions C21_adjustSize.

Example C21_example : fits 32 1000 /\ adjustSize 32 1000 = Ok (N.to_nat 4096).
Proof. split; [prove_fits|vm_compute; reflexivity]. Qed.

(** Finding (C21): from 2^29 keys on (32-bit index), adjustSize loops forever. *)
Theorem C21_adjustSize_large_diverges : forall (w : N) fuel n,
  (5 <= w <= 62)%N -> (n + 1 < 2 ^ w)%N -> (2 ^ (w - 1) < 4 * (n + 1))%N ->
  adjustSizeF w fuel n = Err OutOfFuel.
Proof. exact adjustSizeF_diverges. Qed.
Print Assumptions C21_adjustSize_large_diverges.

Example C21_diverges_example : (536870912 + 1 < 2 ^ 32)%N /\ (2 ^ (32 - 1) < 4 * (536870912 + 1))%N.
Proof. split; vm_compute; reflexivity. Qed.

(** C30 is false of the code: a repeated mask column makes the plain hash kernel loop forever
    (findIdxForce searches an absent key, see [C30_findIdxForce_absent_diverges]), trips the MSA
    assertion, and makes the complemented hash symbolic count too small. *)
Definition dupA : csr Z := mkCsr 1 1 1 [0;1] [0] [2]%Z.
Definition dupB : csr Z := mkCsr 1 3 2 [0;2] [1;2] [3;4]%Z.
Definition dupM : csr Z := mkCsr 1 3 2 [0;2] [1;1] [1;1]%Z.
Lemma dup_compat : compatible dupA dupB dupM.
Proof. constructor; first [reflexivity|prove_wf]. Qed.

Theorem C30_repeated_mask_columns_refuted :
  compatible dupA dupB dupM /\
  hashNumericRow 32 Z.mul Z.add dupA dupB dupM 0 (hash_fresh 16) (mkOut [] 2) = Err OutOfFuel /\
  msaNumericRow Z.mul Z.add false dupA dupB dupM 0 (msa_clean 3) (mkOut [] 2) = Err AssertFail /\
  (r <- hashSymbolicRowC 32 dupA dupB dupM 0 2 (hash_fresh 32) ;; Ok (snd r)) = Ok 0%Z /\
  length (compl_cols dupA dupB dupM 0) = 1.
Proof. split; [exact dup_compat|]. repeat split; vm_compute; reflexivity. Qed.
Print Assumptions C30_repeated_mask_columns_refuted.

Theorem C30_findIdxForce_absent_diverges :
  forall V (t : list (hent V)) kk key, 2 ^ kk <= length t ->
  (forall i e, t !! i = Some e -> hk e <> Some key) ->
  forall fuel hv, hv < 2 ^ kk -> probeForce fuel t (2 ^ kk) key hv = Err OutOfFuel.
Proof. exact @probeForce_absent. Qed.
Print Assumptions C30_findIdxForce_absent_diverges.
