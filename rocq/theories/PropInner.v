(** C08 and C12 (inner): the inner-product row kernels. *)
From Verif Require Import Base Spec InnerModel InnerProofs Examples.

(** C08: with B stored by columns ([Bc]), the dot-product kernel appends exactly the masked product
    row of A and the matrix [B] that [Bc] represents. *)
Theorem C08_inner_numeric_row :
  forall V (mul add : V -> V -> V) (A B M : csr V) (Bc : csc V) row dn cap,
  compatible A B M -> wf_csc Bc -> same_matrix B Bc -> row < rows A ->
  StronglySorted lt (row_cols A row) -> distinct_rows B -> sorted_cols Bc ->
  length dn + length (spec_row mul add A B M row) <= cap ->
  innerNumericRow mul add A Bc M row (mkOut dn cap) = Ok (mkOut (dn ++ spec_row mul add A B M row) cap).
Proof. exact @innerNumericRow_correct. Qed.
Print Assumptions C08_inner_numeric_row.

Definition exBc : csc Z := mkCsc 3 4 6 [0;2;4;4;6] [0;2;1;2;0;2] [1;-2;7;6;4;1]%Z.
Lemma exBc_wf : wf_csc exBc. Proof. prove_wf. Qed.
Lemma exBc_sorted : sorted_cols exBc.
Proof.
  intros i Hi; cbn in Hi; do 5 (try (destruct i as [|i]; [vm_compute; repeat constructor; lia|])); lia.
Qed.
Lemma exB_distinct : distinct_rows exB. Proof. prove_distinct. Qed.
Lemma exBc_same : same_matrix exB exBc.
Proof.
  constructor; [reflexivity|reflexivity|]. intros k j b Hk Hj. cbn in Hk, Hj.
  do 3 (destruct k as [|k]; [do 4 (destruct j as [|j]; [cbn; rewrite ?elem_of_cons, ?elem_of_nil; intuition congruence|]); lia|]); lia.
Qed.
Example C08_example : compatible exA exB exM /\ wf_csc exBc /\ same_matrix exB exBc /\ sorted_rows exA /\
  distinct_rows exB /\ sorted_cols exBc /\
  innerNumericRow Z.mul Z.add exA exBc exM 0 (mkOut [] 2) = Ok (mkOut [0 ~> -4; 1 ~> 18] 2).
Proof.
  repeat (split; [first [exact ex_compat|exact exBc_wf|exact exBc_same|exact exA_sorted|exact exB_distinct|exact exBc_sorted]|]).
  vm_compute. reflexivity.
Qed.

(** C12 (inner). *)
Theorem C12_inner_symbolic_row :
  forall V (mul add : V -> V -> V) (A B M : csr V) (Bc : csc V) row,
  compatible A B M -> wf_csc Bc -> same_matrix B Bc -> row < rows A ->
  StronglySorted lt (row_cols A row) -> distinct_rows B -> sorted_cols Bc ->
  innerSymbolicRow A Bc M row = Ok (length (spec_row mul add A B M row)).
Proof. exact @innerSymbolicRow_correct. Qed.
Print Assumptions C12_inner_symbolic_row.

Example C12_inner_example : innerSymbolicRow exA exBc exM 0 = Ok 2 /\ innerSymbolicRow exA exBc exM 2 = Ok 1.
Proof. split; vm_compute; reflexivity. Qed.
