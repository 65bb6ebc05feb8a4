(** MSA results restated with bundled hypotheses. *)
From Verif Require Import Base Spec KernelBase BaseProofs ComplProofs MsaModel MsaProofs MsaComplProofs.

Section St.
Context {V : Type} (mul add : V -> V -> V).

Lemma st_msa_numeric (two : bool) (A B M : csr V) row dn cap :
  compatible A B M -> row < rows A -> NoDup (row_cols M row) ->
  length dn + length (spec_row mul add A B M row) <= cap ->
  msaNumericRow mul add two A B M row (msa_clean (cols B)) (mkOut dn cap) =
    Ok (msa_clean (cols B), mkOut (dn ++ spec_row mul add A B M row) cap).
Proof. intros []; intros; apply msaNumericRow_correct; auto. Qed.

Lemma st_msa_symbolic (A B M : csr V) row :
  compatible A B M -> row < rows A -> NoDup (row_cols M row) ->
  msaSymbolicRow A B M row (msa_clean_sym (cols B)) =
    Ok (msa_clean_sym (cols B), length (spec_row mul add A B M row)).
Proof. intros []; intros; apply msaSymbolicRow_correct; auto. Qed.

Lemma st_msa_numeric_C (two sorted : bool) (A B M : csr V) row dn cap :
  compatible A B M -> row < rows A -> NoDup (row_cols M row) ->
  length dn + length (compl_cols A B M row) <= cap ->
  exists l,
    msaNumericRowC mul add two sorted A B M row (msa_clean (cols B)) (mkOut dn cap) =
      Ok (msa_clean (cols B), mkOut (dn ++ l) cap) /\
    is_compl_row mul add A B M row l /\
    length l = length (compl_cols A B M row) /\
    (if sorted then StronglySorted lt (fst <$> l) else fst <$> l = compl_cols A B M row).
Proof.
  intros []; intros. exists (crow mul add sorted A B M row).
  split; [apply msaNumericRowC_correct; auto|]. split; [apply crow_is_compl|].
  split; [apply crow_length|].
  destruct sorted; [apply crow_sorted|exact (crow_keys mul add false A B M row)].
Qed.
End St.

Lemma st_msa_symbolic_C {V} (A B M : csr V) row :
  compatible A B M -> row < rows A ->
  msaSymbolicRowC A B M row (msa_clean_sym (cols B)) =
    Ok (msa_clean_sym (cols B), Z.of_nat (length (compl_cols A B M row))).
Proof. intros []; intros; apply msaSymbolicRowC_correct; auto. Qed.
