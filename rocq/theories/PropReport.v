(** What the benchmarks print beside the times: checksums, names, numbers of operations. *)
From Coq Require Import NArith Ascii String.
From Verif Require Import BaseProofs ConcProofs ReportModel MatSpec ConvProofs WorkProofs BinProofs HeapCscProofs Examples.
From Verif Require Import Base Spec.
Local Open Scope N_scope.

(** ** Specification: the bytes taken in pairs as numbers below 2^16, lowest byte first, added up. *)
Fixpoint word_sum (l : list N) : N :=
  match l with
  | [] => 0
  | [a] => a
  | a :: b :: l' => a + 256 * b + word_sum l'
  end.
Definition is_byte (b : N) : Prop := b < 256.

(** ** Proofs about the loop *)
Lemma land_high_low c : c < 65536 -> N.land c 4294901760 = 0.
Proof.
  intros Hc. apply N.bits_inj_0. intros i. rewrite N.land_spec. destruct (N.lt_ge_cases i 16) as [Hi|Hi].
  - change 4294901760 with (N.shiftl 65535 16). rewrite N.shiftl_spec_low by exact Hi. apply andb_false_r.
  - destruct (N.eq_dec c 0) as [->|Hn]; [rewrite N.bits_0; reflexivity|].
    rewrite N.bits_above_log2; [reflexivity|]. assert (N.log2 c < 16); [|lia]. apply N.log2_lt_pow2; [lia|]. exact Hc.
Qed.
Lemma land_high_high c : 65536 <= c < 131072 -> N.land c 4294901760 <> 0.
Proof.
  intros Hc E. assert (T : N.testbit (N.land c 4294901760) 16 = false) by (rewrite E; apply N.bits_0).
  rewrite N.land_spec in T. change (N.testbit 4294901760 16) with true in T. rewrite andb_true_r in T.
  rewrite N.testbit_false in T. change (2 ^ 16) with 65536 in T.
  assert (c / 65536 = 1) by (symmetry; apply (N.div_unique _ _ _ (c - 65536)); lia). rewrite H in T. discriminate.
Qed.
Lemma addWord_ok c x : c <= 65535 -> x <= 65535 -> addWord c x = if c + x <=? 65535 then c + x else c + x - 65535.
Proof.
  intros Hc Hx. unfold addWord. cbv zeta. rewrite (N.mod_small (c + x)) by (change (2 ^ 32) with 4294967296; lia).
  destruct (N.leb_spec (c + x) 65535) as [H|H].
  - rewrite land_high_low by lia. reflexivity.
  - destruct (N.eqb_spec (N.land (c + x) 4294901760) 0) as [E|_]; [exfalso; revert E; apply land_high_high; lia|].
    change 65535 with (N.ones 16) at 1. rewrite N.land_ones. change (2 ^ 16) with 65536.
    replace ((c + x) mod 65536) with (c + x - 65536) by (apply (N.mod_unique _ _ 1); lia).
    rewrite N.mod_small by (change (2 ^ 32) with 4294967296; lia). lia.
Qed.

(** [r] is the end-around-carry sum of numbers that add up to [s]. *)
Definition folds (r s : N) : Prop := r <= 65535 /\ (r = 0 <-> s = 0) /\ exists q, s = r + 65535 * q.
Lemma folds_step r s x : folds r s -> x <= 65535 -> folds (addWord r x) (s + x).
Proof.
  intros (H1 & H2 & q & Hq) Hx. rewrite addWord_ok by assumption. destruct (N.leb_spec (r + x) 65535).
  - repeat split; [lia|lia|lia|]. exists q. lia.
  - repeat split; [lia|lia|lia|]. exists (q + 1). lia.
Qed.
Lemma folds_eq r s r' s' : folds r s -> folds r' s' -> (r = r' <-> s mod 65535 = s' mod 65535 /\ (s = 0 <-> s' = 0)).
Proof.
  intros (H1 & H2 & q & Hq) (H1' & H2' & q' & Hq').
  assert (Hm : forall a b, (a + 65535 * b) mod 65535 = a mod 65535) by (intros a b; rewrite N.mul_comm; apply N.mod_add; lia).
  split.
  - intros <-. rewrite Hq, Hq', !Hm. split; [reflexivity|]. rewrite <- Hq, <- Hq'. tauto.
  - intros [Hmod Hz]. rewrite Hq, Hq', !Hm in Hmod. rewrite <- H2, <- H2' in Hz.
    destruct (N.eq_dec r 65535) as [->|N1]; destruct (N.eq_dec r' 65535) as [->|N2]; [reflexivity| | |].
    + rewrite N.mod_same in Hmod by lia. rewrite N.mod_small in Hmod by lia. lia.
    + rewrite N.mod_same in Hmod by lia. rewrite N.mod_small in Hmod by lia. lia.
    + rewrite !N.mod_small in Hmod by lia. exact Hmod.
Qed.

Fixpoint words (n : nat) (l : list N) : list N :=
  match n, l with
  | S n, a :: b :: l' => (a + 256 * b) :: words n l'
  | _, _ => []
  end.
Lemma loop_words n : forall (pre l : list N) k c, length pre = (2 * k)%nat -> (2 * n <= length l)%nat ->
  for_n n k (fun i c => x <- word16 (pre ++ l) i ;; Ok (addWord c x)) c = Ok (fold_left addWord (words n l) c).
Proof.
  induction n as [|n IH]; intros pre l k c Hp Hl; [reflexivity|].
  destruct l as [|a [|b l]]; simpl in Hl; [lia|lia|]. simpl for_n.
  assert (W : word16 (pre ++ a :: b :: l) k = Ok (a + 256 * b)).
  { assert (G0 : (pre ++ a :: b :: l) !! (2 * k)%nat = Some a).
    { rewrite lookup_app_r by lia. replace (2 * k - length pre)%nat with 0%nat by lia. reflexivity. }
    assert (G1 : (pre ++ a :: b :: l) !! (2 * k + 1)%nat = Some b).
    { rewrite lookup_app_r by lia. replace (2 * k + 1 - length pre)%nat with 1%nat by lia. reflexivity. }
    unfold word16, get. rewrite G0, G1. reflexivity. }
  rewrite W, bind_Ok, bind_Ok. cbn [words fold_left].
  replace (pre ++ a :: b :: l) with ((pre ++ [a; b]) ++ l) by (rewrite <- app_assoc; reflexivity).
  apply IH; [rewrite app_length; simpl; lia|lia].
Qed.

Lemma words_folds n : forall l c s, Forall is_byte l -> (2 * n <= length l)%nat -> folds c s ->
  folds (fold_left addWord (words n l) c) (s + word_sum (take (2 * n) l)).
Proof.
  induction n as [|n IH]; intros l c s Hl Hn Hf; [simpl; rewrite N.add_0_r; exact Hf|].
  destruct l as [|a [|b l]]; simpl in Hn; [lia|lia|].
  apply Forall_cons in Hl as [Ha Hl]. apply Forall_cons in Hl as [Hb Hl]. unfold is_byte in Ha, Hb.
  replace (2 * S n)%nat with (S (S (2 * n))) by lia. cbn [firstn words fold_left word_sum]. rewrite (N.add_assoc s). apply IH; [exact Hl|lia|]. apply folds_step; [exact Hf|lia].
Qed.

Lemma word_sum_odd n : forall l a, length l = (2 * n)%nat -> word_sum (l ++ [a]) = word_sum l + a.
Proof.
  induction n as [|n IH]; intros l a Hl.
  - destruct l; [|discriminate]. reflexivity.
  - destruct l as [|x [|y l]]; simpl in Hl; [lia|lia|]. rewrite <- !app_comm_cons. cbn [word_sum].
    rewrite IH by lia. lia.
Qed.

Lemma checksum_folds data len : Forall is_byte data -> (len <= length data)%nat ->
  exists r, calculateChecksum data len = Ok (65535 - r) /\ folds r (word_sum (take len data)).
Proof.
  intros Hb Hl. pose proof (Nat.div_mod len 2 ltac:(lia)) as Hd. pose proof (Nat.mod_upper_bound len 2 ltac:(lia)) as Hm.
  set (n := (len / 2)%nat) in *.
  assert (F0 : folds (fold_left addWord (words n data) 0) (word_sum (take (2 * n) data))).
  { rewrite <- (N.add_0_l (word_sum _)). apply words_folds; [exact Hb|lia|]. split; [lia|]. split; [tauto|]. exists 0. reflexivity. }
  assert (E : exists r, (c <- for_ 0 n (fun i c => x <- word16 data i ;; Ok (addWord c x)) 0 ;;
      (if Nat.odd len then x <- get data (2 * n) ;; Ok (addWord c x) else Ok c)) = Ok r /\ folds r (word_sum (take len data))).
  { unfold for_. rewrite Nat.sub_0_r, (loop_words n [] data 0) by (simpl; lia). rewrite bind_Ok.
    rewrite <- Nat.bit0_odd, Nat.bit0_eqb. destruct (Nat.eqb_spec (len mod 2) 1) as [Ho|Ho].
    - destruct (lookup_lt_is_Some_2 data (2 * n)) as [a Ha]; [lia|]. unfold get. rewrite Ha, bind_Ok. eexists. split; [reflexivity|].
      replace len with (S (2 * n)) by lia. rewrite (take_S_r _ _ a) by exact Ha. rewrite (word_sum_odd n) by (rewrite take_length; lia).
      apply folds_step; [exact F0|]. rewrite Forall_lookup in Hb. apply Hb in Ha. unfold is_byte in Ha. lia.
    - eexists. split; [reflexivity|]. replace len with (2 * n)%nat by lia. exact F0. }
  destruct E as (r & E & Hr). exists r. split; [|exact Hr]. unfold calculateChecksum. fold n. cbv zeta.
  destruct (for_ 0 n _ 0) as [c|f]; [|discriminate]. rewrite bind_Ok in E |- *. rewrite E, bind_Ok. f_equal.
  destruct Hr as (Hr & _). change 65535 with (N.ones 16) at 1. rewrite N.land_ones, N.mod_small by (change (2 ^ 16) with 65536; lia).
  change 65535 with (N.ones 16) at 1. rewrite N.land_ones.
  assert (L : r + N.lnot r 32 = N.ones 32).
  { apply N.add_lnot_diag_low. destruct (N.eq_dec r 0) as [->|]; [reflexivity|]. apply N.log2_lt_pow2; [lia|].
    change (2 ^ 32) with 4294967296. lia. }
  change (N.ones 32) with 4294967295 in L. change (2 ^ 16) with 65536. symmetry. apply (N.mod_unique _ _ 65535); lia.
Qed.

(** ** C56 *)

(** For every array of bytes and every length the checksum is 65535 minus the sum of the 16-bit words reduced modulo
    65535, where only a sum of 0 gives 0; no intermediate value overflows. *)
Theorem C56_checksum data len : Forall is_byte data -> (len <= length data)%nat ->
  exists r, calculateChecksum data len = Ok (65535 - r) /\ r <= 65535 /\
    (r = 0 <-> word_sum (take len data) = 0) /\ r mod 65535 = word_sum (take len data) mod 65535.
Proof.
  intros Hb Hl. destruct (checksum_folds data len Hb Hl) as (r & E & H1 & H2 & q & Hq). exists r. repeat split; [exact E|exact H1|apply H2|apply H2|].
  rewrite Hq, (N.mul_comm 65535), N.mod_add by lia. reflexivity.
Qed.
Print Assumptions C56_checksum.

(** Exactly which arrays have the same checksum. *)
Theorem C56_collisions data len data' len' : Forall is_byte data -> Forall is_byte data' -> (len <= length data)%nat -> (len' <= length data')%nat ->
  (calculateChecksum data len = calculateChecksum data' len' <->
   word_sum (take len data) mod 65535 = word_sum (take len' data') mod 65535 /\
   (word_sum (take len data) = 0 <-> word_sum (take len' data') = 0)).
Proof.
  intros Hb Hb' Hl Hl'. destruct (checksum_folds data len Hb Hl) as (r & E & F). destruct (checksum_folds data' len' Hb' Hl') as (r' & E' & F').
  rewrite <- (folds_eq r _ r' _ F F'), E, E'. destruct F as (F & _). destruct F' as (F' & _). split; [|intros <-; reflexivity].
  intros H. assert (65535 - r = 65535 - r') by congruence. lia.
Qed.
Print Assumptions C56_collisions.

Lemma word_sum_app n : forall l l', length l = (2 * n)%nat -> word_sum (l ++ l') = word_sum l + word_sum l'.
Proof.
  induction n as [|n IH]; intros l l' Hl.
  - destruct l; [|discriminate]. reflexivity.
  - destruct l as [|x [|y l]]; simpl in Hl; [lia|lia|]. rewrite <- !app_comm_cons. cbn [word_sum].
    rewrite IH by lia. lia.
Qed.

(** A change of one 16-bit word is seen, unless it is from 0 to 65535 or back. *)
Theorem C56_detects pre a b a' b' post : Forall is_byte (pre ++ a :: b :: post) -> is_byte a' -> is_byte b' -> Nat.even (length pre) = true ->
  (a, b) <> (a', b') -> ~ (a + 256 * b = 0 /\ a' + 256 * b' = 65535) -> ~ (a + 256 * b = 65535 /\ a' + 256 * b' = 0) ->
  calculateChecksum (pre ++ a :: b :: post) (length (pre ++ a :: b :: post)) <>
  calculateChecksum (pre ++ a' :: b' :: post) (length (pre ++ a' :: b' :: post)).
Proof.
  intros Hb Ha' Hb' He Hne N1 N2 E. apply Nat.even_spec in He as (n & Hn).
  apply Forall_app in Hb as [Hp Hb]. apply Forall_cons in Hb as [Ha Hb]. apply Forall_cons in Hb as [Hb Hpost].
  apply C56_collisions in E; [|rewrite Forall_app, !Forall_cons; tauto|rewrite Forall_app, !Forall_cons; tauto|reflexivity|reflexivity].
  destruct E as [E _]. rewrite !firstn_all, !(word_sum_app n) in E by exact Hn. cbn [word_sum] in E. unfold is_byte in *.
  set (x := a + 256 * b) in *. set (y := a' + 256 * b') in *.
  assert (Hxy : x <> y). { intros Exy. apply Hne. subst x y. f_equal; lia. }
  assert (Hx : x <= 65535) by (subst x; lia). assert (Hy : y <= 65535) by (subst y; lia).
  set (s := word_sum pre) in *. set (t := word_sum post) in *. clearbody x y s t.
  pose proof (N.div_mod (s + (x + t)) 65535 ltac:(lia)) as D1. pose proof (N.div_mod (s + (y + t)) 65535 ltac:(lia)) as D2. rewrite E in D1.
  set (q1 := (s + (x + t)) / 65535) in *. set (q2 := (s + (y + t)) / 65535) in *. set (m := (s + (y + t)) mod 65535) in *. clearbody q1 q2 m.
  lia.
Qed.
Print Assumptions C56_detects.

Example C56_example : calculateChecksum [1; 2; 255; 255; 3] 5 = Ok 65019 /\ word_sum [1; 2; 255; 255; 3] = 66051 /\
  calculateChecksum [1; 2; 255; 254; 3] 5 = Ok 65275 /\ calculateChecksum [] 0 = Ok 65535.
Proof. vm_compute. repeat split. Qed.

(** ** The checksum of a matrix *)
Definition sumN (l : list N) : N := foldr N.add 0 l.
Lemma sumN_perm l l' : l ≡ₚ l' -> sumN l = sumN l'.
Proof. induction 1 as [|x l l' _ IH|x y l|l1 l2 l3 _ IH1 _ IH2]; simpl; [reflexivity|rewrite IH; reflexivity|lia|congruence]. Qed.

Section Enc.
Context {A : Type} (enc : A -> list N) (sz : nat).
Hypothesis Hsz : forall a, length (enc a) = sz.
Lemma enc_length l : length (mjoin (enc <$> l)) = (length l * sz)%nat.
Proof. induction l as [|a l IH]; [reflexivity|]. rewrite fmap_cons, mjoin_cons, app_length, IH, Hsz. simpl. lia. Qed.
Lemma enc_bytes l : (forall a, Forall is_byte (enc a)) -> Forall is_byte (mjoin (enc <$> l)).
Proof. intros Hby. induction l as [|a l IH]; [constructor|]. rewrite fmap_cons, mjoin_cons, Forall_app. split; [apply Hby|exact IH]. Qed.
Lemma enc_take n l : take (n * sz) (mjoin (enc <$> l)) = mjoin (enc <$> take n l).
Proof.
  revert n. induction l as [|a l IH]; intros n; [simpl; rewrite !take_nil; reflexivity|].
  destruct n as [|n]; [reflexivity|]. cbn [firstn]. rewrite !fmap_cons, !mjoin_cons. rewrite <- IH.
  replace (S n * sz)%nat with (length (enc a) + n * sz)%nat by (rewrite Hsz; lia). apply take_add_app. reflexivity.
Qed.
Lemma enc_sum l : Nat.even sz = true -> word_sum (mjoin (enc <$> l)) = sumN ((fun a => word_sum (enc a)) <$> l).
Proof.
  intros He. apply Nat.even_spec in He as (k & Hk). induction l as [|a l IH]; [reflexivity|].
  rewrite !fmap_cons, mjoin_cons, (word_sum_app k) by (rewrite Hsz; exact Hk). rewrite IH. reflexivity.
Qed.
End Enc.

Section MatrixChecksum.
Context {V : Type} (encI : nat -> list N) (encV : V -> list N) (szI szV : nat).
Hypotheses (HI : forall a, length (encI a) = szI) (HV : forall a, length (encV a) = szV)
  (BI : forall a, Forall is_byte (encI a)) (BV : forall a, Forall is_byte (encV a)).

(** For every matrix the checksum is made without access outside the arrays, from all indices, all values and all
    pointers but the last. *)
Theorem C56_matrix (A : csr V) : wf A ->
  exists p v i, checksum encI encV szI szV (rows A) (nnz A) (rowptr A) (colids A) (values A) = Ok (p, v, i) /\
    (exists r, p = 65535 - r /\ folds r (word_sum (mjoin (encI <$> take (rows A) (rowptr A))))) /\
    (exists r, v = 65535 - r /\ folds r (word_sum (mjoin (encV <$> values A)))) /\
    (exists r, i = 65535 - r /\ folds r (word_sum (mjoin (encI <$> colids A)))).
Proof.
  intros HA. unfold checksum.
  destruct (checksum_folds (mjoin (encV <$> values A)) (nnz A * szV)) as (rv & Ev & Fv);
    [apply enc_bytes, BV|rewrite (enc_length _ _ HV), (wf_values _ HA); apply Nat.le_refl|].
  destruct (checksum_folds (mjoin (encI <$> colids A)) (nnz A * szI)) as (ri & Ei & Fi);
    [apply enc_bytes, BI|rewrite (enc_length _ _ HI), (wf_colids _ HA); apply Nat.le_refl|].
  destruct (checksum_folds (mjoin (encI <$> rowptr A)) (rows A * szI)) as (rp & Ep & Fp);
    [apply enc_bytes, BI|rewrite (enc_length _ _ HI), (wf_len _ HA); apply Nat.mul_le_mono_r; lia|].
  rewrite Ev, Ei, Ep, !bind_Ok. rewrite (enc_take _ _ HI) in Fp, Fi. rewrite (enc_take _ _ HV) in Fv.
  rewrite take_ge in Fi by (rewrite (wf_colids _ HA); lia). rewrite take_ge in Fv by (rewrite (wf_values _ HA); lia).
  eexists _, _, _. split; [reflexivity|]. repeat split; eexists; (split; [reflexivity|assumption]).
Qed.

(** False (finding): that different results have different checksums.  The order of the indices and of the values, and
    the last pointer, do not enter. *)
Theorem C56_order_refuted n nz (ptr ptr' ids ids' : list nat) (vals vals' : list V) :
  Nat.even szI = true -> Nat.even szV = true ->
  length ids = nz -> length vals = nz -> (n <= length ptr)%nat -> (n <= length ptr')%nat ->
  take n ptr = take n ptr' -> ids ≡ₚ ids' -> vals ≡ₚ vals' ->
  checksum encI encV szI szV n nz ptr ids vals = checksum encI encV szI szV n nz ptr' ids' vals'.
Proof.
  intros EI EV Li Lv Lp Lp' Hp Hi Hv.
  assert (Li' : length ids' = nz) by (rewrite <- Hi; exact Li). assert (Lv' : length vals' = nz) by (rewrite <- Hv; exact Lv).
  assert (Cv : calculateChecksum (mjoin (encV <$> vals)) (nz * szV) = calculateChecksum (mjoin (encV <$> vals')) (nz * szV)).
  { apply C56_collisions; [apply enc_bytes, BV|apply enc_bytes, BV|rewrite (enc_length _ _ HV); apply Nat.mul_le_mono_r; lia|rewrite (enc_length _ _ HV); apply Nat.mul_le_mono_r; lia|].
    rewrite !(enc_take _ _ HV), !take_ge, !(enc_sum _ _ HV) by (assumption || lia).
    rewrite (sumN_perm _ _ (fmap_Permutation (fun a => word_sum (encV a)) _ _ Hv)). tauto. }
  assert (Ci : calculateChecksum (mjoin (encI <$> ids)) (nz * szI) = calculateChecksum (mjoin (encI <$> ids')) (nz * szI)).
  { apply C56_collisions; [apply enc_bytes, BI|apply enc_bytes, BI|rewrite (enc_length _ _ HI); apply Nat.mul_le_mono_r; lia|rewrite (enc_length _ _ HI); apply Nat.mul_le_mono_r; lia|].
    rewrite !(enc_take _ _ HI), !take_ge, !(enc_sum _ _ HI) by (assumption || lia).
    rewrite (sumN_perm _ _ (fmap_Permutation (fun a => word_sum (encI a)) _ _ Hi)). tauto. }
  assert (Cp : calculateChecksum (mjoin (encI <$> ptr)) (n * szI) = calculateChecksum (mjoin (encI <$> ptr')) (n * szI)).
  { apply C56_collisions; [apply enc_bytes, BI|apply enc_bytes, BI|rewrite (enc_length _ _ HI); apply Nat.mul_le_mono_r; lia|rewrite (enc_length _ _ HI); apply Nat.mul_le_mono_r; lia|].
    rewrite !(enc_take _ _ HI), Hp. tauto. }
  unfold checksum. rewrite Cv, Ci, Cp. reflexivity.
Qed.
End MatrixChecksum.
Print Assumptions C56_matrix.
Print Assumptions C56_order_refuted.

(** Two different matrices, the identity and the exchange of two coordinates, with the same checksum. *)
Definition enc4 (n : nat) : list N := [N.of_nat n mod 256; N.of_nat n / 256 mod 256; N.of_nat n / 65536 mod 256; N.of_nat n / 16777216 mod 256].
Definition chkA : csr nat := mkCsr 2 2 2 [0; 1; 2]%nat [0; 1]%nat [5; 5]%nat.
Definition chkB : csr nat := mkCsr 2 2 2 [0; 1; 2]%nat [1; 0]%nat [5; 5]%nat.
Example C56_order_example : triples chkA <> triples chkB /\
  checksum enc4 enc4 4 4 2 2 (rowptr chkA) (colids chkA) (values chkA) = Ok (65534, 65525, 65534) /\
  checksum enc4 enc4 4 4 2 2 (rowptr chkB) (colids chkB) (values chkB) = Ok (65534, 65525, 65534) /\
  (forall a, length (enc4 a) = 4%nat) /\ (forall a, Forall is_byte (enc4 a)).
Proof.
  split; [vm_compute; discriminate|]. split; [vm_compute; reflexivity|]. split; [vm_compute; reflexivity|]. split; [reflexivity|].
  intros a. unfold enc4, is_byte. repeat (apply Forall_cons; split); [apply N.mod_lt; lia..|constructor].
Qed.

(** ** C57: names *)
Local Open Scope nat_scope.
Notation prefix := (@stdpp.list.prefix ascii).
Notation suffix := (@stdpp.list.suffix ascii).

Lemma removePrefix_app (p s : list ascii) : removePrefix (p ++ s) p = s.
Proof.
  unfold removePrefix. rewrite app_length. destruct (Nat.ltb_spec (length p + length s) (length p)); [lia|].
  rewrite take_app, bool_decide_eq_true_2 by reflexivity. apply drop_app.
Qed.
Lemma startsWith_app (p s : list ascii) : startsWith (p ++ s) p = true.
Proof.
  unfold startsWith. rewrite app_length. destruct (Nat.ltb_spec (length p + length s) (length p)); [lia|].
  rewrite take_app. apply bool_decide_eq_true_2. reflexivity.
Qed.
Lemma take_prefix (p s : list ascii) : take (length p) s = p -> prefix p s.
Proof. intros E. exists (drop (length p) s). rewrite <- E at 1. rewrite take_drop. reflexivity. Qed.
Lemma removePrefix_no (p s : list ascii) : ~ prefix p s -> removePrefix s p = s.
Proof.
  intros N. unfold removePrefix. destruct (_ <? _); [reflexivity|]. rewrite bool_decide_eq_false_2; [reflexivity|].
  intros E. apply N, take_prefix, E.
Qed.
Lemma startsWith_no (p s : list ascii) : ~ prefix p s -> startsWith s p = false.
Proof.
  intros N. unfold startsWith. destruct (_ <? _); [reflexivity|]. apply bool_decide_eq_false_2.
  intros E. apply N, take_prefix, E.
Qed.
Lemma removeSuffix_app (s x : list ascii) : removeSuffix (x ++ s) s = x.
Proof.
  unfold removeSuffix. rewrite app_length. destruct (Nat.ltb_spec (length x + length s) (length s)); [lia|].
  replace (length x + length s - length s) with (length x) by lia. rewrite drop_app, take_app, firstn_all, bool_decide_eq_true_2; reflexivity.
Qed.
Lemma removeSuffix_no (s x : list ascii) : ~ suffix s x -> removeSuffix x s = x.
Proof.
  intros N. unfold removeSuffix. destruct (Nat.ltb_spec (length x) (length s)); [reflexivity|]. rewrite bool_decide_eq_false_2; [reflexivity|].
  intros E. apply N. exists (take (length x - length s) x). rewrite take_ge in E by (rewrite drop_length; lia).
  transitivity (take (length x - length s) x ++ drop (length x - length s) x); [symmetry; apply take_drop|rewrite E; reflexivity].
Qed.

(** [y] is [x] without an ending "::Impl". *)
Definition without_impl (x y : list ascii) : Prop :=
  x = y ++ str "::Impl" \/ (~ suffix (str "::Impl") x /\ y = x).
Lemma removeImpl x y : without_impl x y -> removeSuffix x (str "::Impl") = y.
Proof. intros [->|[N ->]]; [apply removeSuffix_app|apply removeSuffix_no, N]. Qed.

(** The argument as the macros write it: RUN_CSR((MaskedSpGEMM1p<X>)) or RUN_CSR(MaskedSpGEMM1p<X>). *)
Definition driver_name (paren two : bool) (X : list ascii) : list ascii :=
  let n := (if two then str "MaskedSpGEMM2p<" else str "MaskedSpGEMM1p<") ++ X ++ str ">" in
  if paren then str "(" ++ n ++ str ")" else n.
Definition no_spaces (s : list ascii) : list ascii := filter (fun c => c <> " "%char) s.

Lemma paren_strip (n : list ascii) : n <> [] -> (forall s, n <> "("%char :: s) ->
  forall paren : bool, (f <- front (if paren then str "(" ++ n ++ str ")" else n) ;;
   if bool_decide (f = "("%char) then
             b <- back (if paren then str "(" ++ n ++ str ")" else n) ;;
             Ok (if bool_decide (b = ")"%char) then take (length (if paren then str "(" ++ n ++ str ")" else n) - 2) (drop 1 (if paren then str "(" ++ n ++ str ")" else n))
                 else (if paren then str "(" ++ n ++ str ")" else n))
           else Ok (if paren then str "(" ++ n ++ str ")" else n)) = Ok n.
Proof.
  intros Hn Hh paren. destruct paren.
  - change (str "(" ++ n ++ str ")") with ("("%char :: n ++ [")"%char]). change (front ("("%char :: n ++ [")"%char])) with (Ok "("%char).
    rewrite bind_Ok, bool_decide_eq_true_2 by reflexivity.
    assert (B : back ("("%char :: n ++ [")"%char]) = Ok ")"%char).
    { unfold back, get. simpl length. rewrite app_length. simpl length. replace (S (length n + 1) - 1) with (S (length n)) by lia.
      simpl. rewrite lookup_app_r by lia. rewrite Nat.sub_diag. reflexivity. }
    rewrite B, bind_Ok, bool_decide_eq_true_2 by reflexivity. simpl length. rewrite app_length. simpl length.
    replace (S (length n + 1) - 2) with (length n) by lia. change (drop 1 ("("%char :: n ++ [")"%char])) with (n ++ [")"%char]). rewrite take_app. reflexivity.
  - destruct n as [|c n]; [congruence|]. change (front (c :: n)) with (Ok c). rewrite bind_Ok, bool_decide_eq_false_2; [reflexivity|].
    intros ->. apply (Hh n). reflexivity.
Qed.

Lemma process_eq (paren : bool) n : n <> [] -> (forall s, n <> "("%char :: s) ->
  processAlgorithmName (if paren then str "(" ++ n ++ str ")" else n) =
  let numPhases := if startsWith n (str "MaskedSpGEMM1p<") then 1 else if startsWith n (str "MaskedSpGEMM2p<") then 2 else 0 in
  let n := removeSuffix (removeSuffix (removePrefix (removePrefix n (str "MaskedSpGEMM1p<")) (str "MaskedSpGEMM2p<")) (str ">")) (str "::Impl") in
  Ok (no_spaces (if numPhases =? 1 then n ++ str "-1P" else if numPhases =? 2 then n ++ str "-2P" else n)).
Proof.
  intros Hn Hh. pose proof (paren_strip n Hn Hh paren) as P. unfold processAlgorithmName.
  set (m := if paren then _ else _) in *. destruct (front m) as [c|]; [|discriminate]. rewrite bind_Ok in P |- *. rewrite P. reflexivity.
Qed.

(** For every algorithm the name printed is that of the algorithm, without "::Impl" and without spaces, followed by the
    number of phases. *)
Theorem C57_driver_name paren two X Y : without_impl X Y -> ~ prefix (str "MaskedSpGEMM2p<") X ->
  processAlgorithmName (driver_name paren two X) = Ok (no_spaces Y ++ (if two then str "-2P" else str "-1P")).
Proof.
  intros HX HN. unfold driver_name. rewrite process_eq by (destruct two; [discriminate|discriminate] || (intros s; destruct two; discriminate)).
  cbv zeta. destruct two.
  - rewrite (startsWith_no (str "MaskedSpGEMM1p<")), startsWith_app by (intros (k & E); discriminate). simpl (2 =? 1). simpl (2 =? 2). cbv iota.
    rewrite (removePrefix_no (str "MaskedSpGEMM1p<")) by (intros (k & E); discriminate).
    rewrite removePrefix_app, removeSuffix_app, (removeImpl _ _ HX). unfold no_spaces. rewrite filter_app. reflexivity.
  - rewrite startsWith_app. simpl (1 =? 1). cbv iota. rewrite removePrefix_app, (removePrefix_no (str "MaskedSpGEMM2p<")).
    + rewrite removeSuffix_app, (removeImpl _ _ HX). unfold no_spaces. rewrite filter_app. reflexivity.
    + intros (k & E). apply HN. destruct k as [|c k _] using rev_ind.
      * rewrite app_nil_r in E. exfalso. assert (L : last (X ++ str ">") = last (str "MaskedSpGEMM2p<")) by (rewrite E; reflexivity).
        change (str ">") with [">"%char] in L. rewrite last_snoc in L. discriminate.
      * exists k. change (str ">") with [">"%char] in E. rewrite app_assoc in E. apply app_inj_tail in E as [E _]. exact E.
Qed.
Print Assumptions C57_driver_name.
Example C57_driver_example :
  processAlgorithmName (str "(MaskedSpGEMM2p<MaskedHeap<false, true, 512>::Impl>)") = Ok (str "MaskedHeap<false,true,512>-2P") /\
  processAlgorithmName (str "MaskedSpGEMM1p<MaskedInner>") = Ok (str "MaskedInner-1P") /\
  driver_name true true (str "MaskedHeap<false, true, 512>::Impl") = str "(MaskedSpGEMM2p<MaskedHeap<false, true, 512>::Impl>)".
Proof. repeat split. Qed.

(** Two runs of the drivers that are given the same name have the same number of phases and, up to spaces and "::Impl",
    the same algorithm. *)
Theorem C57_distinct paren two X Y paren' two' X' Y' n : without_impl X Y -> without_impl X' Y' ->
  ~ prefix (str "MaskedSpGEMM2p<") X -> ~ prefix (str "MaskedSpGEMM2p<") X' ->
  processAlgorithmName (driver_name paren two X) = Ok n -> processAlgorithmName (driver_name paren' two' X') = Ok n ->
  two = two' /\ no_spaces Y = no_spaces Y'.
Proof.
  intros HX HX' HN HN'. rewrite (C57_driver_name paren two X Y HX HN), (C57_driver_name paren' two' X' Y' HX' HN'). intros [= <-] [= E].
  assert (L : length (if two then str "-2P" else str "-1P") = length (if two' then str "-2P" else str "-1P")) by (destruct two, two'; reflexivity).
  apply app_inj_2 in E as [E1 E2]; [|symmetry; exact L]. split; [destruct two, two'; (reflexivity || discriminate)|symmetry; exact E1].
Qed.
Print Assumptions C57_distinct.

(** A name without the marks of the macros is printed as it is. *)
Theorem C57_plain_name n : n <> [] -> (forall s, n <> "("%char :: s) -> " "%char ∉ n -> ~ prefix (str "MaskedSpGEMM1p<") n -> ~ prefix (str "MaskedSpGEMM2p<") n ->
  ~ suffix (str ">") n -> ~ suffix (str "::Impl") n -> processAlgorithmName n = Ok n.
Proof.
  intros Hn Hh Hs N1 N2 N3 N4. pose proof (process_eq false n Hn Hh) as P. cbv iota in P. rewrite P. cbv zeta.
  rewrite (startsWith_no _ _ N1), (startsWith_no _ _ N2), (removePrefix_no _ _ N1), (removePrefix_no _ _ N2), (removeSuffix_no _ _ N3), (removeSuffix_no _ _ N4).
  simpl. f_equal. unfold no_spaces. clear -Hs. induction n as [|c n IH]; [reflexivity|]. rewrite not_elem_of_cons in Hs. destruct Hs as [H1 H2].
  rewrite filter_cons_True by (intros ->; congruence). rewrite IH by exact H2. reflexivity.
Qed.
Print Assumptions C57_plain_name.
Example C57_plain_example : processAlgorithmName (str "mxm_hash_mask_wobin") = Ok (str "mxm_hash_mask_wobin") /\
  processAlgorithmName (str "MSA2A_old-1P") = Ok (str "MSA2A_old-1P").
Proof. split; reflexivity. Qed.

(** False (finding): of a template that is not one of the two drivers the closing bracket is dropped. *)
Theorem C57_bracket_refuted X : X <> [] -> (forall s, X <> "("%char :: s) -> ~ suffix (str "::Impl") X ->
  ~ prefix (str "MaskedSpGEMM1p<") (X ++ str ">") -> ~ prefix (str "MaskedSpGEMM2p<") (X ++ str ">") ->
  processAlgorithmName (str "(" ++ (X ++ str ">") ++ str ")") = Ok (no_spaces X).
Proof.
  intros Hn Hh N1 N2 N3. pose proof (process_eq true (X ++ str ">")) as P. cbv iota in P. rewrite P.
  - cbv zeta. rewrite (startsWith_no _ _ N2), (startsWith_no _ _ N3), (removePrefix_no _ _ N2), (removePrefix_no _ _ N3), removeSuffix_app, (removeSuffix_no _ _ N1).
    reflexivity.
  - destruct X; discriminate.
  - intros s. destruct X as [|c X]; [congruence|]. intros [= -> _]. apply (Hh X). reflexivity.
Qed.
Print Assumptions C57_bracket_refuted.
Example C57_bracket_example : processAlgorithmName (str "(innerSpGEMM_nohash<false, false>)") = Ok (str "innerSpGEMM_nohash<false,false").
Proof. reflexivity. Qed.

(** The labels of TriCntAll.cpp 298-351 are all different. *)
Definition tri_labels : list (list ascii) := str <$>
  ["(innerSpGEMM_nohash<false, false>)"; "MaskedSpGEMM1pInnerProduct"; "MaskedSpGEMM2pInnerProduct"; "MaskedSpGEMM1p<MaskedInner>";
   "MaskedSpGEMM2p<MaskedInner>"; "MaskedSPASpGEMM"; "MSA2A_old-1P"; "MSA2A_old-2P"; "(MaskedSpGEMM1p<MSA2A<false, false>::Impl>)";
   "(MaskedSpGEMM2p<MSA2A<false, false>::Impl>)"; "MSA1A_old-1P"; "MSA1A_old-2P"; "(MaskedSpGEMM1p<MSA1A<false, false>::Impl>)";
   "(MaskedSpGEMM2p<MSA1A<false, false>::Impl>)"; "mxm_hash_mask_wobin"; "mxm_hash_mask"; "(MaskedSpGEMM1p<MaskedHash<false, false>::Impl>)";
   "(MaskedSpGEMM2p<MaskedHash<false, false>::Impl>)"; "MaskedHeap_v0-1P"; "MaskedHeap_v0-2P"; "(MaskedSpGEMM1p<MaskedHeap<false, true, 0>::Impl>)";
   "(MaskedSpGEMM2p<MaskedHeap<false, true, 0>::Impl>)"; "MaskedHeap_v1-1P"; "MaskedHeap_v1-2P"; "(MaskedSpGEMM1p<MaskedHeap<false, true, 1>::Impl>)";
   "(MaskedSpGEMM2p<MaskedHeap<false, true, 1>::Impl>)"; "(MaskedSpGEMM1p<MaskedHeap<false, true, 8>::Impl>)"; "(MaskedSpGEMM2p<MaskedHeap<false, true, 8>::Impl>)";
   "(MaskedSpGEMM1p<MaskedHeap<false, true, 64>::Impl>)"; "(MaskedSpGEMM2p<MaskedHeap<false, true, 64>::Impl>)";
   "(MaskedSpGEMM1p<MaskedHeap<false, true, 512>::Impl>)"; "(MaskedSpGEMM2p<MaskedHeap<false, true, 512>::Impl>)"; "MaskedHeap_v2-1P"; "MaskedHeap_v2-2P";
   "(MaskedSpGEMM1p<MaskedHeap<false, true, MaskedHeapDot>::Impl>)"; "(MaskedSpGEMM2p<MaskedHeap<false, true, MaskedHeapDot>::Impl>)"; "HashIntersect"]%string.
Example C57_labels : NoDup ((fun l => match processAlgorithmName l with Ok n => n | Err _ => [] end) <$> tri_labels) /\
  Forall (fun l => exists n, processAlgorithmName l = Ok n) tri_labels.
Proof. split; [refine (bool_decide_unpack _ _); vm_compute; exact I|]. unfold tri_labels. repeat (apply Forall_cons; split; [eexists; reflexivity|]). constructor. Qed.

(** ** Names of files *)
Lemma rfind_none c s : c ∉ s -> rfind c s = None.
Proof.
  induction s as [|x s IH]; intros H; [reflexivity|]. apply not_elem_of_cons in H as [H1 H2]. simpl. rewrite IH by exact H2.
  rewrite bool_decide_eq_false_2 by congruence. reflexivity.
Qed.
Lemma rfind_last c d f : c ∉ f -> rfind c (d ++ c :: f) = Some (length d).
Proof.
  intros H. induction d as [|x d IH]; simpl.
  - rewrite rfind_none by exact H. rewrite bool_decide_eq_true_2; reflexivity.
  - rewrite IH. reflexivity.
Qed.

(** getFileName of benchmarks-util.h: what follows the last slash; everything if there is none. *)
Theorem C57_file_name : (forall d f, "/"%char ∉ f -> getFileName (d ++ "/"%char :: f) = f) /\ (forall p, "/"%char ∉ p -> getFileName p = p).
Proof.
  split; intros.
  - unfold getFileName. rewrite rfind_last by assumption. replace (length d + 1) with (length (d ++ ["/"%char])) by (rewrite app_length; reflexivity).
    rewrite (app_assoc d ["/"%char] f) || (change (d ++ "/"%char :: f) with (d ++ ["/"%char] ++ f); rewrite app_assoc). apply drop_app.
  - unfold getFileName. rewrite rfind_none by assumption. reflexivity.
Qed.
Print Assumptions C57_file_name.
Example C57_file_example : getFileName (str "/data/graphs/web.mtx") = str "web.mtx" /\ getFileName (str "web.mtx") = str "web.mtx" /\ getFileName (str "dir/") = [].
Proof. repeat split. Qed.

Lemma slash_skip path : forall k l, (forall i, l <= i < l + k -> exists c, path !! i = Some c /\ c <> "/"%char) -> slashLoop path (l + k) = slashLoop path l.
Proof.
  induction k as [|k IH]; intros l H; [rewrite Nat.add_0_r; reflexivity|]. replace (l + S k) with (S (l + k)) by lia. cbn [slashLoop].
  destruct (H (l + k) ltac:(lia)) as (c & Hc & Hne). unfold get. rewrite Hc, bind_Ok, bool_decide_eq_false_2 by exact Hne.
  apply IH. intros i Hi. apply H. lia.
Qed.

(** The getFileName of MaskedAllSpGEMM.cpp does the same for paths with a slash ... *)
Theorem C57_file_name_c_partial d f : "/"%char ∉ f -> getFileNameC (d ++ "/"%char :: f) = Ok f.
Proof.
  intros Hf. unfold getFileNameC. set (path := (d ++ "/"%char :: f) ++ ["000"%char]).
  assert (E : slashLoop path (length (d ++ "/"%char :: f) + 1) = Ok (length d)).
  { replace (length (d ++ "/"%char :: f) + 1) with (S (length d) + (length f + 1)) by (rewrite app_length; simpl; lia). rewrite slash_skip.
    - cbn [slashLoop]. unfold get, path. rewrite <- app_assoc, lookup_app_r, Nat.sub_diag by lia. reflexivity.
    - intros i Hi. unfold path. rewrite <- app_assoc, lookup_app_r by lia. destruct (i - length d) as [|j] eqn:Ej; [lia|]. simpl.
      destruct (decide (j < length f)) as [Hj|Hj].
      + rewrite lookup_app_l by exact Hj. destruct (lookup_lt_is_Some_2 f j Hj) as [c Hc]. exists c. split; [exact Hc|]. intros ->. apply Hf. eapply elem_of_list_lookup_2, Hc.
      + rewrite lookup_app_r by lia. replace (j - length f) with 0 by lia. exists "000"%char. split; [reflexivity|discriminate]. }
  rewrite E, bind_Ok. f_equal. unfold path. rewrite app_length. simpl length.
  replace (length d + S (length f) - (length d + 1)) with (length f) by lia. rewrite <- app_assoc.
  replace (length d + 1) with (length (d ++ ["/"%char])) by (rewrite app_length; reflexivity).
  change (d ++ ("/"%char :: f) ++ ["000"%char]) with (d ++ ["/"%char] ++ (f ++ ["000"%char])). rewrite app_assoc, drop_app. apply take_app.
Qed.
Print Assumptions C57_file_name_c_partial.

(** ... but reads the byte before the path if there is none (finding). *)
Theorem C57_file_name_c_refuted p : "/"%char ∉ p -> getFileNameC p = Err OutOfBounds.
Proof.
  intros Hp. unfold getFileNameC. change (length p + 1) with (0 + (length p + 1)) || idtac. rewrite (slash_skip _ (length p + 1) 0); [reflexivity|].
  intros i Hi. destruct (decide (i < length p)) as [Hj|Hj].
  - rewrite lookup_app_l by exact Hj. destruct (lookup_lt_is_Some_2 p i Hj) as [c Hc]. exists c. split; [exact Hc|]. intros ->. apply Hp. eapply elem_of_list_lookup_2, Hc.
  - rewrite lookup_app_r by lia. replace (i - length p) with 0 by lia. exists "000"%char. split; [reflexivity|discriminate].
Qed.
Print Assumptions C57_file_name_c_refuted.
Example C57_file_c_example : getFileNameC (str "data/web.mtx") = Ok (str "web.mtx") /\ getFileNameC (str "web.mtx") = Err OutOfBounds.
Proof. split; reflexivity. Qed.

(** ** C58: numbers of operations *)
Section Pairs.
Context {V : Type}.
(** The multiplications of a product: pairs of an entry of the left and one of the right matrix with the column of the
    first equal to the row of the second. *)
Definition mult_pairs (ta tb : list (nat * nat * V)) : nat :=
  length (filter (fun p : (nat * nat * V) * (nat * nat * V) => snd (fst (fst p)) = fst (fst (snd p))) (list_prod ta tb)).

Definition in_row (tb : list (nat * nat * V)) (k : nat) : nat := length (filter (fun t => fst (fst t) = k) tb).
Lemma mult_pairs_rows ta tb : mult_pairs ta tb = sum_list ((fun t => in_row tb (snd (fst t))) <$> ta).
Proof.
  unfold mult_pairs. induction ta as [|t ta IH]; [reflexivity|]. simpl list_prod. rewrite filter_app, app_length, IH, fmap_cons. simpl. f_equal.
  unfold in_row. clear. induction tb as [|u tb IH]; [reflexivity|]. simpl map. destruct (decide (fst (fst u) = snd (fst t))) as [E|N].
  - rewrite !filter_cons_True by (simpl; congruence). simpl. rewrite IH. reflexivity.
  - rewrite !filter_cons_False by (simpl; congruence). exact IH.
Qed.
Lemma in_row_app t u k : in_row (t ++ u) k = in_row t k + in_row u k.
Proof. unfold in_row. rewrite filter_app, app_length. reflexivity. Qed.
Lemma in_row_map i (l : list (nat * V)) k : in_row ((fun e => (i, fst e, snd e)) <$> l) k = if decide (i = k) then length l else 0.
Proof.
  unfold in_row. induction l as [|e l IH]; [simpl; destruct (decide (i = k)); reflexivity|]. rewrite fmap_cons. destruct (decide (i = k)) as [->|N].
  - rewrite filter_cons_True by reflexivity. simpl. rewrite IH. reflexivity.
  - rewrite filter_cons_False by exact N. exact IH.
Qed.
Lemma in_row_seq (f : nat -> list (nat * V)) a n k : in_row (mjoin ((fun i => (fun e => (i, fst e, snd e)) <$> f i) <$> seq a n)) k = if decide (a <= k < a + n) then length (f k) else 0.
Proof.
  revert a. induction n as [|n IH]; intros a; simpl seq.
  - destruct (decide (a <= k < a + 0)); [lia|reflexivity].
  - rewrite fmap_cons, mjoin_cons, in_row_app, in_row_map, IH. repeat case_decide; subst; lia.
Qed.
Lemma in_row_triples (B : csr V) k : k < rows B -> in_row (triples B) k = length (row_entries B k).
Proof. intros Hk. unfold triples. rewrite in_row_seq. destruct (decide _); [reflexivity|lia]. Qed.
Lemma sum_mjoin {X Y} (g : Y -> nat) (f : X -> list Y) (l : list X) : sum_list (g <$> mjoin (f <$> l)) = sum_list ((fun i => sum_list (g <$> f i)) <$> l).
Proof. induction l as [|x l IH]; [reflexivity|]. rewrite !fmap_cons, mjoin_cons, fmap_app, sum_list_app, IH. reflexivity. Qed.
Lemma sum_ext {X} (f g : X -> nat) (l : list X) : (forall x, x ∈ l -> f x = g x) -> sum_list (f <$> l) = sum_list (g <$> l).
Proof.
  induction l as [|x l IH]; intros H; [reflexivity|]. rewrite !fmap_cons. simpl. rewrite H by left. rewrite IH by (intros; apply H; right; assumption). reflexivity.
Qed.

Lemma mult_pairs_nprods (A B : csr V) : wf A -> wf B -> cols A = rows B ->
  mult_pairs (triples A) (triples B) = sum_list (nprods A B <$> seq 0 (rows A)).
Proof.
  intros HA HB Hc. rewrite mult_pairs_rows. unfold triples at 2. rewrite sum_mjoin. apply sum_ext. intros i Hi. apply elem_of_seq in Hi.
  rewrite <- list_fmap_compose. unfold nprods. apply sum_ext. intros [k v] He. simpl. apply in_row_triples. rewrite <- Hc.
  apply (row_cols_range A i); [exact HA|]. unfold row_cols. apply elem_of_list_fmap. exists (k, v). split; [reflexivity|exact He].
Qed.

Definition swap3 (t : nat * nat * V) : nat * nat * V := (snd (fst t), fst (fst t), snd t).
Lemma triples_csc_swap (B : csc V) : triples_csc B = swap3 <$> triples (csc_tr B).
Proof.
  unfold triples_csc, triples. rewrite mjoin_fmap, <- list_fmap_compose. simpl rows. f_equal. apply list_fmap_ext. intros ? j ?. simpl.
  rewrite <- list_fmap_compose. reflexivity.
Qed.
Lemma mult_pairs_swap ta tb : mult_pairs (swap3 <$> ta) (swap3 <$> tb) = mult_pairs tb ta.
Proof.
  assert (G : forall ta tb, mult_pairs (swap3 <$> ta) (swap3 <$> tb) = sum_list ((fun t => length (filter (fun u : nat * nat * V => snd (fst u) = fst (fst t)) tb)) <$> ta)).
  { clear. intros ta tb. rewrite mult_pairs_rows, <- list_fmap_compose. apply sum_ext. intros t _. simpl. unfold in_row. generalize (fst (fst t)); intros k. clear. induction tb as [|u tb IH]; [reflexivity|].
    rewrite fmap_cons. destruct (decide (snd (fst u) = k)).
    - rewrite !filter_cons_True by assumption. simpl. rewrite IH. reflexivity.
    - rewrite !filter_cons_False by assumption. exact IH. }
  rewrite G. rewrite mult_pairs_rows. unfold in_row. clear G.
  (* double counting *)
  revert tb. induction ta as [|t ta IH]; intros tb.
  - simpl. induction tb as [|u tb IHb]; [reflexivity|]. rewrite fmap_cons. simpl. exact IHb.
  - rewrite fmap_cons. simpl sum_list at 1. rewrite IH. clear IH. induction tb as [|u tb IHb]; [reflexivity|]. rewrite !fmap_cons. cbn [sum_list].
    destruct (decide (snd (fst u) = fst (fst t))) as [E|N].
    + rewrite filter_cons_True by exact E. rewrite (filter_cons_True (fun t0 : nat * nat * V => fst (fst t0) = snd (fst u)) t ta) by congruence.
      cbn [length sum_list]. simpl in *. lia.
    + rewrite filter_cons_False by exact N. rewrite (filter_cons_False (fun t0 : nat * nat * V => fst (fst t0) = snd (fst u)) t ta) by congruence.
      simpl in *. lia.
Qed.
End Pairs.

(** multiply.h: for two matrices by rows twice the number of multiplications. *)
Theorem C58_flop_csr {V} (A B : csr V) : wf A -> wf B -> cols A = rows B -> getFlopCsr A B = Ok (2 * mult_pairs (triples A) (triples B)).
Proof.
  intros HA HB Hc. unfold getFlopCsr. rewrite (mult_pairs_nprods A B HA HB Hc).
  destruct (for_inv (fun i s => s = sum_list (nprods A B <$> seq 0 i)) (fun i tflops => locmax <- flopsRow A B i ;; Ok (tflops + locmax)) 0 (rows A) 0) as (s & E & ->).
  - lia.
  - reflexivity.
  - intros i s Hi ->. rewrite flopsRow_ok by (assumption || lia). rewrite bind_Ok. eexists. split; [reflexivity|].
    rewrite Nat.add_1_r, seq_S, fmap_app, sum_list_app. simpl. lia.
  - rewrite E, bind_Ok. f_equal. lia.
Qed.
Print Assumptions C58_flop_csr.

(** heap_mult.h, inner_mult.h: the same for two matrices by columns, for every distribution of the columns over threads. *)
Theorem C58_flop_csc {V} (A B : csc V) : wf_csc A -> wf_csc B -> c_cols A = c_rows B ->
  forall r, getFlopCsc_always A B r <-> r = 2 * mult_pairs (triples_csc A) (triples_csc B).
Proof.
  intros HA HB Hc r.
  assert (E : mult_pairs (triples_csc A) (triples_csc B) = sum_list (nprods (csc_tr B) (csc_tr A) <$> seq 0 (c_cols B))).
  { rewrite !triples_csc_swap, mult_pairs_swap. apply mult_pairs_nprods; [exact HB|exact HA|symmetry; exact Hc]. }
  assert (P : parfor_always (flopsCol A B) (c_cols B) (replicate (c_cols B) (Some 0))
    (((fun i => Some (nprods (csc_tr B) (csc_tr A) i)) <$> seq 0 (c_cols B)) ++ drop (c_cols B) (replicate (c_cols B) (Some 0)))
    (sum_list (nprods (csc_tr B) (csc_tr A) <$> seq 0 (c_cols B)))).
  { apply parfor_ok; [|rewrite replicate_length; lia]. intros i Hi. rewrite flopsCol_row. apply flopsRow_ok; [exact HB|exact HA|symmetry; exact Hc|exact Hi]. }
  split.
  - intros (m & t & Q & ->). destruct (parfor_always_unique _ _ _ _ _ _ _ Q P) as [_ ->]. rewrite E. lia.
  - intros ->. eexists _, _. split; [exact P|]. rewrite E. lia.
Qed.
Print Assumptions C58_flop_csc.

(** multiply.h: a matrix by columns and one by rows, if the product of the two counts of every column fits the index type. *)
Lemma flopsOuter_ok {V} w (A : csc V) (B : csr V) i : wf_csc A -> wf B -> c_cols A = rows B -> i < c_cols A ->
  flopsOuter w A B i = Ok ((N.of_nat (length (col_entries A i)) * N.of_nat (length (row_entries B i))) mod 2 ^ w)%N.
Proof.
  intros HA HB Hc Hi. destruct (row_bounds_wf (csc_tr A) i HA Hi) as (b & e & Hb & He & Hle & Hen & _).
  destruct (row_bounds_wf B i HB ltac:(lia)) as (b' & e' & Hb' & He' & Hle' & Hen' & _).
  unfold flopsOuter, get. change (rowptr (csc_tr A)) with (colptr A) in Hb, He. rewrite Hb, He, Hb', He', !bind_Ok. do 3 f_equal.
  - f_equal. symmetry. apply (row_entries_length (csc_tr A) i b e); assumption.
  - f_equal. symmetry. apply (row_entries_length B i b' e'); (assumption || lia).
Qed.
Lemma mult_pairs_outer {V} (A : csc V) (B : csr V) : c_cols A = rows B ->
  mult_pairs (triples_csc A) (triples B) = sum_list ((fun i => length (col_entries A i) * length (row_entries B i)) <$> seq 0 (c_cols A)).
Proof.
  intros Hc. rewrite mult_pairs_rows. unfold triples_csc. rewrite sum_mjoin. apply sum_ext. intros i Hi. apply elem_of_seq in Hi.
  rewrite <- list_fmap_compose. induction (col_entries A i) as [|e l IH]; [reflexivity|]. rewrite fmap_cons. cbn [sum_list length]. simpl.
  rewrite in_row_triples by lia. simpl in IH. rewrite IH. reflexivity.
Qed.

Lemma foldrN_perm (l l' : list N) : l ≡ₚ l' -> foldr N.add 0%N l = foldr N.add 0%N l'.
Proof. induction 1; simpl; lia. Qed.
Section Outer.
Context {V : Type} (w : N) (A : csc V) (B : csr V) (f : nat -> N) (Hf : forall i, i < c_cols A -> flopsOuter w A B i = Ok (f i)).
Definition sumF (l : list nat) : N := foldr N.add 0%N (f <$> l).
Lemma outer_thread its acc : (forall i, i ∈ its -> i < c_cols A) ->
  foldM (fun acc i => x <- flopsOuter w A B i ;; Ok (acc + x)%N) its acc = Ok (acc + sumF its)%N.
Proof.
  revert acc. induction its as [|i its IH]; intros acc H; simpl.
  - f_equal. unfold sumF. simpl. lia.
  - rewrite Hf by (apply H; left). rewrite !bind_Ok, IH by (intros; apply H; right; assumption). f_equal. unfold sumF. rewrite fmap_cons. cbn [foldr]. lia.
Qed.
Lemma outer_ret r : getFlopOuter_returns w A B r <-> r = Ok (2 * sumF (seq 0 (c_cols A)))%N.
Proof.
  assert (In : forall asg, schedule (c_cols A) asg -> forall its i, its ∈ asg -> i ∈ its -> i < c_cols A).
  { intros asg Ha its i H1 H2. assert (Hm : i ∈ seq 0 (c_cols A)); [|apply elem_of_seq in Hm; lia]. rewrite <- Ha. apply elem_of_list_join. eauto. }
  assert (Th : forall asg sums, schedule (c_cols A) asg -> Forall2 (fun its s => foldM (fun acc i => x <- flopsOuter w A B i ;; Ok (acc + x)%N) its 0%N = s) asg sums ->
    sums = (fun its => Ok (sumF its)) <$> asg).
  { intros asg sums Ha H. specialize (In asg Ha). clear Ha. induction H as [|its s asg sums H1 H2 IH]; [reflexivity|]. rewrite fmap_cons. f_equal.
    - rewrite <- H1, outer_thread; [reflexivity|]. intros i Hi. apply (In its); [left|exact Hi].
    - apply IH. intros its' i X1 X2. apply (In its'); [right; exact X1|exact X2]. }
  assert (Fo : forall (l : list (list nat)) ord acc, ord ≡ₚ ((fun its => Ok (sumF its)) <$> l) ->
    foldM (fun acc s => x <- s ;; Ok (acc + x)%N) ord acc = Ok (acc + sumF (mjoin l))%N).
  { intros l ord acc Ho. apply Permutation_map_inv in Ho as (l' & -> & Hl).
    assert (E : sumF (mjoin l) = sumF (mjoin l')).
    { unfold sumF. assert (P : f <$> mjoin l ≡ₚ f <$> mjoin l') by (rewrite Hl; reflexivity). exact (foldrN_perm _ _ P). }
    rewrite E. clear -l'. revert acc. induction l' as [|its l' IH]; intros acc; simpl.
    - f_equal. unfold sumF. simpl. lia.
    - rewrite IH. f_equal. change (mjoin (its :: l')) with (its ++ mjoin l'). unfold sumF. rewrite fmap_app, foldr_app.
      assert (G : forall l x, foldr N.add x l = (foldr N.add 0 l + x)%N) by (clear; intros l x; induction l; simpl; lia). rewrite (G (f <$> its) (foldr N.add 0%N (f <$> mjoin l'))). lia. }
  split.
  - intros (asg & sums & ord & Ha & H1 & H2 & ->). rewrite (Th asg sums Ha H1) in H2. rewrite (Fo asg ord 0%N H2), bind_Ok. f_equal.
    assert (P : f <$> mjoin asg ≡ₚ f <$> seq 0 (c_cols A)) by (rewrite Ha; reflexivity). unfold sumF. rewrite (foldrN_perm _ _ P). lia.
  - intros ->. exists [seq 0 (c_cols A)], [Ok (sumF (seq 0 (c_cols A)))], [Ok (sumF (seq 0 (c_cols A)))]. repeat split.
    + unfold schedule. simpl. rewrite app_nil_r. reflexivity.
    + constructor; [|constructor]. rewrite outer_thread; [reflexivity|]. intros i Hi. apply elem_of_seq in Hi. lia.
    + reflexivity.
    + cbn [foldM bind]. rewrite N.add_0_l, N.mul_comm. reflexivity.
Qed.
End Outer.

Theorem C58_flop_outer_partial {V} w (A : csc V) (B : csr V) : wf_csc A -> wf B -> c_cols A = rows B ->
  (forall i, i < c_cols A -> (N.of_nat (length (col_entries A i)) * N.of_nat (length (row_entries B i)) < 2 ^ w)%N) ->
  forall r, getFlopOuter_returns w A B r <-> r = Ok (N.of_nat (2 * mult_pairs (triples_csc A) (triples B))).
Proof.
  intros HA HB Hc Hs r. rewrite (outer_ret w A B (fun i => N.of_nat (length (col_entries A i) * length (row_entries B i)))).
  - rewrite mult_pairs_outer by exact Hc. set (l := seq 0 (c_cols A)). clearbody l.
    assert (E : (2 * sumF (fun i => N.of_nat (length (col_entries A i) * length (row_entries B i))) l)%N = N.of_nat (2 * sum_list ((fun i => length (col_entries A i) * length (row_entries B i)) <$> l))).
    { unfold sumF. induction l as [|i l IH]; [reflexivity|]. rewrite !fmap_cons. cbn [foldr sum_list]. unfold id. rewrite N.mul_add_distr_l, IH, Nat.mul_add_distr_l, Nat2N.inj_add. f_equal. rewrite (Nat2N.inj_mul 2). reflexivity. }
    rewrite E. reflexivity.
  - intros i Hi. rewrite flopsOuter_ok by assumption. rewrite N.mod_small by (apply Hs, Hi). rewrite Nat2N.inj_mul. reflexivity.
Qed.
Print Assumptions C58_flop_outer_partial.

(** False (finding) if a product does not fit: one column and one row of n entries each. *)
Definition colN (n : nat) : csc nat := mkCsc n 1 n [0; n] (seq 0 n) (replicate n 1).
Definition rowN (n : nat) : csr nat := mkCsr 1 n n [0; n] (seq 0 n) (replicate n 1).
Lemma rowN_wf n : wf (rowN n).
Proof.
  split; simpl; rewrite ?seq_length, ?replicate_length; try reflexivity.
  - intros [|[|i]] a b Ha Hb; simpl in *; simplify_eq; lia.
  - intros p c Hp. apply lookup_seq in Hp. lia.
Qed.
Theorem C58_flop_outer_refuted w n : (2 ^ w <= N.of_nat n * N.of_nat n)%N ->
  wf_csc (colN n) /\ wf (rowN n) /\ mult_pairs (triples_csc (colN n)) (triples (rowN n)) = n * n /\
  forall r, getFlopOuter_returns w (colN n) (rowN n) r -> exists v, r = Ok v /\ (v < N.of_nat (2 * (n * n)))%N.
Proof.
  intros Hn. assert (W : wf_csc (colN n)) by (pose proof (rowN_wf n) as W; exact W).
  assert (L1 : length (col_entries (colN n) 0) = n).
  { unfold col_entries. rewrite (row_entries_length (csc_tr (colN n)) 0 0 n W); [lia|simpl; lia|reflexivity|reflexivity]. }
  assert (L2 : length (row_entries (rowN n) 0) = n).
  { rewrite (row_entries_length (rowN n) 0 0 n (rowN_wf n)); [lia|simpl; lia|reflexivity|reflexivity]. }
  split; [exact W|]. split; [apply rowN_wf|]. split.
  - rewrite mult_pairs_outer by reflexivity. simpl. rewrite L1, L2. lia.
  - intros r Hr. apply (outer_ret w (colN n) (rowN n) (fun i => (N.of_nat (length (col_entries (colN n) i)) * N.of_nat (length (row_entries (rowN n) i))) mod 2 ^ w)%N) in Hr.
    + eexists. split; [exact Hr|]. unfold sumF. simpl seq. simpl fmap. cbn [foldr]. rewrite L1, L2.
      pose proof (N.mod_lt (N.of_nat n * N.of_nat n) (2 ^ w) ltac:(apply N.pow_nonzero; lia)). lia.
    + intros i Hi. apply flopsOuter_ok; [exact W|apply rowN_wf|reflexivity|exact Hi].
Qed.
Print Assumptions C58_flop_outer_refuted.

Definition flA : csr nat := mkCsr 2 3 3 [0; 2; 3] [0; 2; 1] [1; 2; 3].
Definition flB : csr nat := mkCsr 3 2 4 [0; 2; 2; 4] [0; 1; 0; 1] [1; 2; 3; 4].
Definition flAc : csc nat := mkCsc 2 3 3 [0; 1; 2; 3] [0; 1; 0] [1; 3; 2].
Definition flBc : csc nat := mkCsc 3 2 4 [0; 2; 4] [0; 2; 0; 2] [1; 3; 2; 4].
Example C58_example : (wf flA /\ wf flB /\ wf_csc flAc /\ wf_csc flBc) /\ getFlopCsr flA flB = Ok 8 /\ mult_pairs (triples flA) (triples flB) = 4 /\ mult_pairs (triples_csc flAc) (triples_csc flBc) = 4 /\
  (flopsOuter 32 flAc flB <$> [0; 1; 2]) = [Ok 2; Ok 0; Ok 2]%N /\ (2 ^ 32 <= N.of_nat (N.to_nat 65536) * N.of_nat (N.to_nat 65536))%N.
Proof. split; [split_and!; try unfold wf_csc; prove_wf|]. repeat split; try reflexivity. Qed.
