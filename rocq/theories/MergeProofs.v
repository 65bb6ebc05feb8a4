(** MergeDuplicates. *)
From stdpp Require Import numbers.
From Verif Require Import MatModel PairsModel BaseProofs ConcProofs ParProofs ScanProofs WorkProofs Assemble MatProofs MatSpec ConvProofs SortProofs MatStatements PairsProofs HeapImplStuck.
From Verif Require DriverBase.
From Verif Require Import Base Spec.

(** ** Vectors that are too short: no execution ends well *)
Section Stuck.
Context {V : Type} (dflt : V) (add : V -> V -> V).

Lemma noret_runIts (body : nat -> prog loc (mcell V) unit) i its : noret (body i) -> i ∈ its -> noret (runIts body its).
Proof.
  intros Hb. induction its as [|j its IH]; intros Hin; [inversion Hin|]. simpl. apply elem_of_cons in Hin as [<-|Hin].
  - apply noret_bind_l, Hb.
  - apply noret_bind_r. intros _. apply IH, Hin.
Qed.

Lemma copyBody_noret nv cp i : nv <= i -> noret (copyBody (V := V) nv cp i).
Proof. intros H. unfold copyBody, inner. destruct (Nat.ltb_spec i nv); [lia|exact Logic.I]. Qed.

Lemma mergeN_short nv (X X' : csc V) : nv < c_cols X -> ~ mergeN_ends dflt add nv X X'.
Proof.
  intros Hnv (_ & _ & diff & diff1 & m1 & m2 & _ & _ & _ & _ & _ & _ & Hend & _).
  specialize (Hend [seq 0 (c_cols X)] (sched_one _)). simpl in Hend.
  eapply (noret_always _ [_] 0); [reflexivity| |exact Hend].
  apply (noret_runIts _ nv); [apply copyBody_noret; lia|apply elem_of_seq; lia].
Qed.
End Stuck.

(** ** One column *)
Section Column.
Context {V : Type} (add : V -> V -> V).

(** The entries of a column merged, the current run being row [r] with value [v]. *)
Fixpoint mrg (r : nat) (v : V) (l : list (nat * V)) : list (nat * V) :=
  match l with
  | [] => [(r, v)]
  | (r', v') :: l' => if r =? r' then mrg r (add v v') l' else (r, v) :: mrg r' v' l'
  end.
Definition merged (l : list (nat * V)) : list (nat * V) := match l with [] => [] | (r, v) :: l' => mrg r v l' end.

Lemma mrg_le r v l : length (mrg r v l) <= S (length l).
Proof. revert r v. induction l as [|[r' v'] l IH]; intros r v; simpl; [lia|]. destruct (r =? r'); simpl; [pose proof (IH r (add v v'))|pose proof (IH r' v')]; lia. Qed.
Lemma merged_le l : length (merged l) <= length l.
Proof. destruct l as [|[r v] l]; simpl; [lia|apply mrg_le]. Qed.

Section Walk.
Context (ids : list nat) (vals : list V) (e : nat).
(** What is stored from [j] on. *)
Definition stored (j : nat) (l : list (nat * V)) : Prop :=
  e = j + length l /\ forall k r v, l !! k = Some (r, v) -> ids !! (j + k) = Some r /\ vals !! (j + k) = Some v.
Lemma stored_tail j x l : stored j (x :: l) -> stored (j + 1) l.
Proof.
  intros [He Hl]. split; [simpl in He; lia|]. intros k r v Hk. replace (j + 1 + k) with (j + S k) by lia. apply Hl, Hk.
Qed.
Lemma stored_head j r v l : stored j ((r, v) :: l) -> get ids j = Ok r /\ get vals j = Ok v /\ j < e.
Proof.
  intros [He Hl]. destruct (Hl 0 r v eq_refl) as [H1 H2]. rewrite Nat.add_0_r in H1, H2. split; [|split]; [apply get_Some, H1|apply get_Some, H2|simpl in He; lia].
Qed.

Lemma mergeRun_ok r v l : forall fuel j acc d, stored j ((r, v) :: l) -> length l < fuel ->
  exists acc' k rest, mergeRun add fuel ids vals e j acc d = Ok (acc', j + k, d - k) /\ k <= length l /\
    rest = drop k l /\ stored (j + k + 1) rest /\ mrg r acc l = (r, acc') :: merged rest.
Proof.
  revert v. induction l as [|[r' v'] l IH]; intros v [|fuel] j acc d Hs Hf; [simpl in Hf; lia| |simpl in Hf; lia|].
  - destruct (stored_head _ _ _ _ Hs) as (_ & _ & Hj). destruct Hs as [He Hl]. simpl in He.
    exists acc, 0, []. simpl. destruct (Nat.ltb_spec j (e - 1)); [lia|]. rewrite Nat.add_0_r, Nat.sub_0_r.
    split; [reflexivity|]. split; [lia|]. split; [reflexivity|]. split; [|reflexivity]. split; [simpl; lia|intros k ? ? Hk; discriminate].
  - destruct (stored_head _ _ _ _ Hs) as (Hg & _ & Hj). pose proof (stored_tail _ _ _ Hs) as Ht. destruct (stored_head _ _ _ _ Ht) as (Hg' & Hv' & Hj').
    assert (Hs' : stored (j + 1) ((r, v') :: l) \/ r <> r').
    { destruct (decide (r = r')) as [->|]; auto. }
    simpl. destruct (Nat.ltb_spec j (e - 1)); [|lia]. rewrite Hg, bind_Ok, Hg', bind_Ok.
    destruct (Nat.eqb_spec r r') as [<-|Hne].
    + rewrite Hv', bind_Ok. destruct Hs' as [Hs'|]; [|congruence]. simpl in Hf.
      destruct (IH v' fuel (j + 1) (add acc v') (d - 1) Hs' ltac:(lia)) as (acc' & k & rest & E & Hk & -> & Hst & Hm).
      exists acc', (S k), (drop k l). rewrite E. replace (j + 1 + k) with (j + S k) by lia. replace (d - 1 - k) with (d - S k) by lia.
      split; [reflexivity|]. split; [simpl; lia|]. split; [reflexivity|]. split; [replace (j + S k + 1) with (j + 1 + k + 1) by lia; exact Hst|exact Hm].
    + exists acc, 0, ((r', v') :: l). rewrite Nat.add_0_r, Nat.sub_0_r. split; [reflexivity|]. split; [lia|]. split; [reflexivity|]. split; [exact Ht|reflexivity].
Qed.

Lemma mergeCol_ok l : forall fuel j rs vs d, stored j l -> length l < fuel -> length l <= d ->
  mergeCol add fuel ids vals e j rs vs d = Ok (rs ++ (fst <$> merged l), vs ++ (snd <$> merged l), d - (length l - length (merged l))).
Proof.
  remember (length l) as N eqn:HN. revert l HN. induction (lt_wf N) as [N _ IH]; intros l HN [|fuel] j rs vs d Hs Hf Hd; [lia|].
  destruct l as [|[r v] l].
  - destruct Hs as [He _]. simpl in *. destruct (Nat.ltb_spec j e); [lia|]. subst N. rewrite !app_nil_r, Nat.sub_0_r. reflexivity.
  - destruct (stored_head _ _ _ _ Hs) as (Hg & Hv & Hj). cbn [mergeCol]. destruct (Nat.ltb_spec j e); [|lia]. rewrite Hg, bind_Ok, Hv, bind_Ok.
    pose proof (proj1 Hs) as He. simpl in He, HN.
    destruct (mergeRun_ok r v l (S (e - j)) j v d Hs ltac:(lia)) as (acc' & k & rest & E & Hk & Hrest & Hst & Hm).
    rewrite E, bind_Ok. assert (Hrl : length rest = length l - k) by (rewrite Hrest, drop_length; reflexivity).
    pose proof (merged_le rest) as Hle.
    rewrite (IH (length rest) ltac:(lia) rest eq_refl) by (first [exact Hst|lia]).
    unfold merged at 4 5 6. rewrite Hm. rewrite !fmap_cons, <- !app_assoc. simpl. f_equal. f_equal. lia.
Qed.
End Walk.

Lemma filter_none (P : nat * V -> Prop) `{forall x, Decision (P x)} l : (forall x, x ∈ l -> ~ P x) -> filter P l = [].
Proof.
  induction l as [|x l IH]; intros Hn; [reflexivity|]. rewrite filter_cons_False by (apply Hn; left). apply IH. intros y Hy. apply Hn. right. exact Hy.
Qed.
(** What merging does to a column whose rows do not decrease. *)
Definition sum_of (l : list (nat * V)) (r : nat) (v : V) : Prop :=
  exists v0 rest, snd <$> filter (fun x => fst x = r) l = v0 :: rest /\ v = fold_left add rest v0.

Lemma mrg_spec l : forall r v acc pre0, StronglySorted le (r :: (fst <$> l)) ->
  (forall x, x ∈ pre0 -> fst x = r) -> (exists rest, snd <$> pre0 = v :: rest /\ acc = fold_left add rest v) ->
  StronglySorted lt (fst <$> mrg r acc l) /\ (forall x, x ∈ mrg r acc l -> r <= fst x) /\
  (forall r', r' ∈ fst <$> mrg r acc l <-> r' ∈ fst <$> pre0 ++ l) /\
  (forall r' v', (r', v') ∈ mrg r acc l -> sum_of (pre0 ++ l) r' v').
Proof.
  induction l as [|[r1 v1] l IH]; intros r v acc pre0 Hs Hp Hacc; simpl.
  - split; [repeat constructor|]. split; [intros x Hx; apply elem_of_list_singleton in Hx as ->; reflexivity|].
    assert (Hf : filter (fun x : nat * V => fst x = r) pre0 = pre0).
    { clear -Hp. induction pre0 as [|x l IH]; [reflexivity|]. rewrite filter_cons_True by (apply Hp; left). f_equal. apply IH. intros y Hy. apply Hp. right. exact Hy. }
    destruct Hacc as (rest & Hr & ->). rewrite app_nil_r. split.
    + intros r'. rewrite elem_of_list_singleton. split.
      * intros ->. destruct pre0 as [|x p]; [discriminate|]. rewrite <- (Hp x) by left. left.
      * intros Hin. apply elem_of_list_fmap in Hin as (x & -> & Hx). apply Hp, Hx.
    + intros r' v' Hin. apply elem_of_list_singleton in Hin as [= -> ->]. exists v, rest. rewrite Hf. auto.
  - simpl in Hs. apply StronglySorted_inv in Hs as [Hs Hall]. apply Forall_cons in Hall as [Hr1 Hall].
    destruct (Nat.eqb_spec r r1) as [<-|Hne].
    + destruct Hacc as (rest & Hr & Ha).
      destruct (IH r v (add acc v1) (pre0 ++ [(r, v1)])) as (I1 & I2 & I3 & I4).
      * exact Hs.
      * intros x Hx. apply elem_of_app in Hx as [Hx|Hx]; [apply Hp, Hx|]. apply elem_of_list_singleton in Hx as ->. reflexivity.
      * exists (rest ++ [v1]). rewrite fmap_app, Hr, fold_left_app, Ha. auto.
      * rewrite <- app_assoc in I3, I4. auto.
    + destruct (IH r1 v1 v1 [(r1, v1)]) as (I1 & I2 & I3 & I4).
      * exact Hs.
      * intros x Hx. apply elem_of_list_singleton in Hx as ->. reflexivity.
      * exists []. auto.
      * simpl in I3, I4. assert (Hf1 : filter (fun x : nat * V => fst x = r) (pre0 ++ (r1, v1) :: l) = pre0).
        { rewrite filter_app. assert (Hf : filter (fun x : nat * V => fst x = r) pre0 = pre0).
          { clear -Hp. induction pre0 as [|x l IH]; [reflexivity|]. rewrite filter_cons_True by (apply Hp; left). f_equal. apply IH. intros y Hy. apply Hp. right. exact Hy. }
          rewrite Hf. rewrite filter_cons_False by (simpl; congruence).
          assert (E : filter (fun x : nat * V => fst x = r) l = []).
          { apply StronglySorted_inv in Hs as [_ Hs1]. rewrite Forall_fmap in Hs1. rewrite Forall_forall in Hs1.
            apply filter_none. intros x Hx Hxr. specialize (Hs1 x Hx). simpl in Hs1. lia. }
          rewrite E, app_nil_r. reflexivity. }
        split; [|split; [|split]].
        -- constructor; [exact I1|]. apply Forall_forall. intros y Hy. apply elem_of_list_fmap in Hy as (x & -> & Hx). specialize (I2 x Hx). simpl. lia.
        -- intros x Hx. apply elem_of_cons in Hx as [->|Hx]; [reflexivity|]. specialize (I2 x Hx). lia.
        -- intros r'. rewrite fmap_cons, elem_of_cons, I3, fmap_app, elem_of_app. split.
           ++ intros [->|Hin]; [|right; exact Hin]. left. destruct Hacc as (rest & Hr & _). destruct pre0 as [|x p]; [discriminate|]. rewrite <- (Hp x) by left. left.
           ++ intros [Hin|Hin]; [left|right; exact Hin]. apply elem_of_list_fmap in Hin as (x & -> & Hx). apply Hp, Hx.
        -- intros r' v' Hin. apply elem_of_cons in Hin as [[= -> ->]|Hin].
           ++ destruct Hacc as (rest & Hr & ->). exists v, rest. rewrite Hf1. auto.
           ++ destruct (I4 r' v' Hin) as (v0 & rest & E & ->). exists v0, rest. split; [|reflexivity].
              specialize (I2 _ Hin). simpl in I2. rewrite filter_app, (filter_none _ pre0).
              ** exact E.
              ** intros x Hx Hxr. rewrite (Hp x Hx) in Hxr. lia.
Qed.

Lemma merged_spec l : StronglySorted le (fst <$> l) ->
  StronglySorted lt (fst <$> merged l) /\ (forall r, r ∈ fst <$> merged l <-> r ∈ fst <$> l) /\
  (forall r v, (r, v) ∈ merged l -> sum_of l r v).
Proof.
  destruct l as [|[r v] l]; intros Hs; simpl.
  - split; [constructor|]. split; [tauto|]. intros r v Hin. inversion Hin.
  - destruct (mrg_spec l r v v [(r, v)] Hs) as (I1 & I2 & I3 & I4).
    + intros x Hx. apply elem_of_list_singleton in Hx as ->. reflexivity.
    + exists []. auto.
    + auto.
Qed.
End Column.
