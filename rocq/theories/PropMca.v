(** C05, C12 (MCA part): the mask-compressed-accumulator row kernels. *)
From Verif Require Import Base Spec MsaModel McaModel McaProofs Examples.

(** C05: with a clean accumulator at least as long as the (non-empty) mask row, strictly sorted mask
    row and strictly sorted rows of B, the kernel appends exactly the masked product row and
    hands the accumulator back clean. *)
Theorem C05_mca_numeric_row :
  forall V (mul add : V -> V -> V) (A B M : csr V) row n dn cap,
  compatible A B M -> row < rows A -> sorted_rows B -> StronglySorted lt (row_cols M row) ->
  row_cols M row <> [] -> length (row_cols M row) <= n ->
  length dn + length (spec_row mul add A B M row) <= cap ->
  mcaNumericRow mul add A B M row (mca_clean n) (mkOut dn cap) =
    Ok (mca_clean n, mkOut (dn ++ spec_row mul add A B M row) cap).
Proof. exact @mcaNumericRow_correct. Qed.
Print Assumptions C05_mca_numeric_row.

Example C05_example : compatible exA exB exM /\ sorted_rows exB /\ sorted_rows exM /\
  mcaNumericRow Z.mul Z.add exA exB exM 0 (mca_clean 3) (mkOut [] 2) =
    Ok (mca_clean 3, mkOut [0 ~> -4; 1 ~> 18] 2).
Proof.
  split; [exact ex_compat|]. split; [exact exB_sorted|]. split; [exact exM_sorted|].
  vm_compute. reflexivity.
Qed.

(** C12 (MCA): the symbolic count is the number of entries of the masked row. *)
Theorem C12_mca_symbolic_row :
  forall V (mul add : V -> V -> V) (A B M : csr V) row n,
  compatible A B M -> row < rows A -> sorted_rows B -> StronglySorted lt (row_cols M row) ->
  row_cols M row <> [] -> length (row_cols M row) <= n ->
  mcaSymbolicRow A B M row (mca_clean n) = Ok (mca_clean n, length (spec_row mul add A B M row)).
Proof. exact @mcaSymbolicRow_correct. Qed.
Print Assumptions C12_mca_symbolic_row.

Example C12_mca_example :
  mcaSymbolicRow exA exB exM 0 (mca_clean 3) = Ok (mca_clean 3, 2).
Proof. vm_compute. reflexivity. Qed.
