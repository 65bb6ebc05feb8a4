(** C01, C02, C12 (MSA part), C14 (MSA part): the MSA row kernels. *)
From stdpp Require Import sorting.
From Verif Require Import Base Spec MsaModel MsaStatements Examples.

(** C01: with a clean accumulator and enough room behind the cursor, both plain-mask MSA kernels
    append exactly the masked product row and hand the accumulator back clean. *)
Theorem C01_msa_numeric_row :
  forall V (mul add : V -> V -> V) (two : bool) (A B M : csr V) row dn cap,
  compatible A B M -> row < rows A -> NoDup (row_cols M row) ->
  length dn + length (spec_row mul add A B M row) <= cap ->
  msaNumericRow mul add two A B M row (msa_clean (cols B)) (mkOut dn cap) =
    Ok (msa_clean (cols B), mkOut (dn ++ spec_row mul add A B M row) cap).
Proof. exact @st_msa_numeric. Qed.
Print Assumptions C01_msa_numeric_row.

Example C01_example : compatible exA exB exM /\ NoDup (row_cols exM 0) /\
  spec_row Z.mul Z.add exA exB exM 0 = [0 ~> -4;1 ~> 18] /\
  msaNumericRow Z.mul Z.add true exA exB exM 0 (msa_clean 4) (mkOut [9 ~> 9] 3) =
    Ok (msa_clean 4, mkOut [9 ~> 9;0 ~> -4;1 ~> 18] 3).
Proof.
  split; [exact ex_compat|]. split; [apply exM_distinct; simpl; lia|].
  split; vm_compute; reflexivity.
Qed.

(** C12 (MSA, plain mask): the symbolic count is the number of entries of the masked row. *)
Theorem C12_msa_symbolic_row :
  forall V (mul add : V -> V -> V) (A B M : csr V) row,
  compatible A B M -> row < rows A -> NoDup (row_cols M row) ->
  msaSymbolicRow A B M row (msa_clean_sym (cols B)) =
    Ok (msa_clean_sym (cols B), length (spec_row mul add A B M row)).
Proof. exact @st_msa_symbolic. Qed.
Print Assumptions C12_msa_symbolic_row.

Example C12_msa_example :
  msaSymbolicRow exA exB exM 0 (msa_clean_sym 4) = Ok (msa_clean_sym 4, 2).
Proof. vm_compute. reflexivity. Qed.

(** C02: the complemented kernels append exactly the product entries outside the mask, once each;
    increasing columns when sorted output is requested, order of first product otherwise. *)
Theorem C02_msa_numeric_row_complemented :
  forall V (mul add : V -> V -> V) (two sorted : bool) (A B M : csr V) row dn cap,
  compatible A B M -> row < rows A -> NoDup (row_cols M row) ->
  length dn + length (compl_cols A B M row) <= cap ->
  exists l,
    msaNumericRowC mul add two sorted A B M row (msa_clean (cols B)) (mkOut dn cap) =
      Ok (msa_clean (cols B), mkOut (dn ++ l) cap) /\
    is_compl_row mul add A B M row l /\
    length l = length (compl_cols A B M row) /\
    (if sorted then StronglySorted lt (fst <$> l) else fst <$> l = compl_cols A B M row).
Proof. exact @st_msa_numeric_C. Qed.
Print Assumptions C02_msa_numeric_row_complemented.

Example C02_example :
  compl_cols exA exB exM 2 = [1;0] /\
  msaNumericRowC Z.mul Z.add false true exA exB exM 2 (msa_clean 4) (mkOut [] 2) =
    Ok (msa_clean 4, mkOut [0 ~> 2;1 ~> 29] 2) /\
  msaNumericRowC Z.mul Z.add true false exA exB exM 2 (msa_clean 4) (mkOut [] 2) =
    Ok (msa_clean 4, mkOut [1 ~> 29;0 ~> 2] 2).
Proof. split; [|split]; vm_compute; reflexivity. Qed.

(** C12 (MSA, complemented mask).  No distinctness of the mask row is needed. *)
Theorem C12_msa_symbolic_row_complemented :
  forall V (A B M : csr V) row,
  compatible A B M -> row < rows A ->
  msaSymbolicRowC A B M row (msa_clean_sym (cols B)) =
    Ok (msa_clean_sym (cols B), Z.of_nat (length (compl_cols A B M row))).
Proof. exact @st_msa_symbolic_C. Qed.
Print Assumptions C12_msa_symbolic_row_complemented.

Example C12_msa_example_complemented :
  msaSymbolicRowC exA exB exM 2 (msa_clean_sym 4) = Ok (msa_clean_sym 4, 2%Z).
Proof. vm_compute. reflexivity. Qed.
