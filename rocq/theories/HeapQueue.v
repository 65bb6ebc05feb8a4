(** The binary heap as a priority queue under any operation sequence (C22). *)
From Verif Require Import Base Spec BaseProofs HeapModel HeapPrimProofs.

(** Operations the kernels perform on a non-empty heap after reading its top: remove the root
    ([QDrop]: after overwriting its fields, MaskedHeapAlgorithmInspect.h:206,241), or overwrite its
    fields and let it sink (:179-187). *)
Inductive qop := QPop | QDrop (e : hentry) | QReplace (e : hentry).

(** The operation sequence on the heap of Heap.h, returning the tops read before each operation;
    stops when the heap is empty. *)
Fixpoint qrun (h : heap) (ops : list qop) : res (list hentry * heap) :=
  match ops with
  | [] => Ok ([], h)
  | op :: ops' =>
    if length (hp h) =? 0 then Ok ([], h)
    else
      t <- h_top h ;;
      h1 <- (match op with
             | QPop => h_pop h
             | QDrop e => h <- h_setRoot h e ;; h_pop h
             | QReplace e => h <- h_setRoot h e ;; h_sinkRoot h
             end) ;;
      '(ts, h2) <- qrun h1 ops' ;;
      Ok (t :: ts, h2)
  end.

(** A priority queue: a multiset [m] from which a minimum-key element is taken. *)
Inductive pq : list hentry -> list qop -> list hentry -> list hentry -> Prop :=
| pq_done m : pq m [] [] m
| pq_empty ops : pq [] ops [] []
| pq_take m t m0 op m1 ops ts m2 :
    m ≡ₚ t :: m0 -> (forall e, e ∈ m -> ek t <= ek e) ->
    m1 ≡ₚ (match op with QReplace e => e :: m0 | _ => m0 end) ->
    pq m1 ops ts m2 -> pq m (op :: ops) (t :: ts) m2.

Lemma is_heap_root_bad l : is_heap l -> root_bad l.
Proof. destruct l as [|r l0]; intros H; [intros i a b Hi; simpl in *; intros; simplify_eq; lia|]. eapply root_bad_set; eauto. Qed.

Lemma qrun_spec ops : forall h, is_heap (hp h) ->
  exists ts h', qrun h ops = Ok (ts, h') /\ pq (hp h) ops ts (hp h') /\ is_heap (hp h') /\ hcap h' = hcap h /\ hmax h' = hmax h.
Proof.
  induction ops as [|op ops IH]; intros h Hh; cbn [qrun].
  { exists [], h. split; [reflexivity|]. split; [constructor|]. auto. }
  destruct (Nat.eqb_spec (length (hp h)) 0) as [He|He].
  { exists [], h. split; [reflexivity|]. apply nil_length_inv in He. rewrite He in *. split; [constructor|]. auto. }
  destruct (hp h) as [|r l0] eqn:E; [simpl in He; lia|].
  assert (h_top h = Ok r) as -> by (unfold h_top; rewrite E; reflexivity). rewrite bind_Ok.
  assert (exists h1, (match op with
             | QPop => h_pop h
             | QDrop e => h <- h_setRoot h e ;; h_pop h
             | QReplace e => h <- h_setRoot h e ;; h_sinkRoot h
             end) = Ok h1 /\ is_heap (hp h1) /\ hcap h1 = hcap h /\ hmax h1 = hmax h /\
             hp h1 ≡ₚ (match op with QReplace e => e :: l0 | _ => l0 end)) as (h1 & -> & Hh1 & Hc & Hm & Hp).
  { assert (Hset : forall e, h_setRoot h e = Ok (mkHeap (e :: l0) (hcap h) (hmax h))).
    { intros e. unfold h_setRoot. rewrite set_Ok by (rewrite E; simpl; lia). rewrite E. reflexivity. }
    destruct op as [|e|e].
    - destruct (h_pop_spec h r l0 E) as (h1 & ? & ? & ? & ? & ?); [rewrite E; apply is_heap_root_bad, Hh|]. eauto 10.
    - rewrite Hset, bind_Ok.
      destruct (h_pop_spec (mkHeap (e :: l0) (hcap h) (hmax h)) e l0 eq_refl) as (h1 & ? & ? & ? & ? & ?); [eapply root_bad_set; eauto|]. eauto 10.
    - rewrite Hset, bind_Ok.
      destruct (h_sinkRoot_spec (mkHeap (e :: l0) (hcap h) (hmax h)) e l0 eq_refl) as (h1 & ? & ? & ? & ? & ?); [eapply root_bad_set; eauto|]. eauto 10. }
  rewrite bind_Ok. destruct (IH h1 Hh1) as (ts & h2 & -> & Hpq & Hh2 & Hc2 & Hm2). cbn [bind].
  exists (r :: ts), h2. split; [reflexivity|]. split; [|split; [exact Hh2|lia]].
  eapply pq_take; [reflexivity| |exact Hp|exact Hpq].
  apply is_heap_min; [exact Hh|reflexivity].
Qed.

Lemma heap_is_queue h ops :
  exists h1 ts h2, h_make h = Ok h1 /\ qrun h1 ops = Ok (ts, h2) /\
    hp h1 ≡ₚ hp h /\ pq (hp h1) ops ts (hp h2) /\ hcap h2 = hcap h.
Proof.
  destruct (h_make_spec h) as (h1 & Hm & Hp & Hh & Hc & _).
  destruct (qrun_spec ops h1 Hh) as (ts & h2 & Hr & Hpq & _ & Hc2 & _).
  exists h1, ts, h2. split; [exact Hm|]. split; [exact Hr|]. split; [exact Hp|]. split; [exact Hpq|lia].
Qed.
