(** Concrete matrices used to show that the hypotheses of the theorems are met. *)
From Verif Require Import Base Spec.

Definition exA : csr Z := mkCsr 3 3 4 [0;2;2;4] [0;2;1;2] [2;3;5;-1]%Z.
Definition exB : csr Z := mkCsr 3 4 6 [0;2;3;6] [0;3;1;0;1;3] [1;4;7;-2;6;1]%Z.
Definition exM : csr Z := mkCsr 3 4 6 [0;3;5;6] [0;1;2;1;3;3] [1;1;1;1;1;1]%Z.

Ltac prove_wf :=
  constructor; simpl;
  [ reflexivity | reflexivity
  | intros i a b; do 8 (try (destruct i as [|i]; simpl; [intros; simplify_eq; lia|])); intros; simplify_eq
  | reflexivity | reflexivity | reflexivity
  | intros p c; do 16 (try (destruct p as [|p]; simpl; [intros; simplify_eq; lia|])); intros; simplify_eq ].

Lemma exA_wf : wf exA. Proof. prove_wf. Qed.
Lemma exB_wf : wf exB. Proof. prove_wf. Qed.
Lemma exM_wf : wf exM. Proof. prove_wf. Qed.

Lemma ex_compat : compatible exA exB exM.
Proof. constructor; first [exact exA_wf|exact exB_wf|exact exM_wf|reflexivity]. Qed.

Ltac prove_distinct :=
  intros i Hi; cbn in Hi; do 4 (try (destruct i as [|i]; [apply (bool_decide_unpack (NoDup _)); vm_compute; exact I|])); lia.

Lemma exM_distinct : distinct_rows exM.
Proof. prove_distinct. Qed.

Ltac prove_sorted :=
  intros i Hi; cbn in Hi; do 4 (try (destruct i as [|i]; [vm_compute; repeat constructor; lia|])); lia.
Lemma exA_sorted : sorted_rows exA. Proof. prove_sorted. Qed.
Lemma exB_sorted : sorted_rows exB. Proof. prove_sorted. Qed.
Lemma exM_sorted : sorted_rows exM. Proof. prove_sorted. Qed.

Notation "c '~>' v" := (c%nat, v%Z) (at level 60).
