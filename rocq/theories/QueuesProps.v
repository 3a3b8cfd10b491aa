(** C05 and C06: the priority queue and the FIFO queue. *)
From Verif Require Import Base RandomAccessSetSpec QueuesModel QueuesSpec QueuesProofs.

(** For every capacity, every strict weak order and every legal history the queue performs no
    out-of-bounds access, terminates, and shows exactly some priority map that the
    specification reaches by the same history; popping removes exactly the item top() shows. *)
Theorem C05_priority_queue :
  forall (T : Type) (d : T) (lt : T -> T -> bool), strict_weak_order T lt ->
  forall maxSize ops, pq_legal T lt maxSize (pm_empty T) ops ->
  exists q M, pq_run T d lt maxSize ops = Ret q /\
    pm_run T lt (pm_empty T) ops M /\
    pq_shows T lt maxSize q M /\
    (pq_empty T q = false -> exists q' i,
       pq_top T q = Ret (Some i) /\ pq_pop T lt q = Ret q' /\
       pq_shows T lt maxSize q' (pm_set T M i None)).
Proof. exact C05_main. Qed.
Print Assumptions C05_priority_queue.

(** FIFO, for histories with at most maxSize pushes since construction or the last clear.
    Missing: histories with more pushes but never more than maxSize stored elements; for these
    the property is false, see C06_fifo_refuted. *)
Theorem C06_fifo_partial :
  forall (T : Type) (d : T) maxSize ops, fifo_legal_total T maxSize 0 [] ops ->
  exists q, fifo_run T d maxSize ops = Ret q /\ fifo_shows T q (fifo_spec T ops).
Proof. exact C06_main. Qed.
Print Assumptions C06_fifo_partial.

(** With capacity 2, push pop push pop push stores at most one element at a time, but the third
    push writes behind the buffer. *)
Theorem C06_fifo_refuted :
  exists maxSize (ops : list (fifo_op nat)), fifo_legal nat maxSize [] ops /\
    fifo_run nat 0 maxSize ops = Undef.
Proof.
  exists 2, [FPush 7; FPop; FPush 8; FPop; FPush 9]. split; [|vm_compute; reflexivity].
  cbn. repeat split; try lia; discriminate.
Qed.
Print Assumptions C06_fifo_refuted.

(** For every positive capacity there is such a history. *)
Theorem C06_fifo_refuted_every_capacity :
  forall maxSize, 0 < maxSize -> exists ops : list (fifo_op nat),
    fifo_legal nat maxSize [] ops /\ fifo_run nat 0 maxSize ops = Undef.
Proof.
  intros m Hm.
  exists (flat_map (fun x => [FPush x; FPop]) (seq 0 m) ++ [FPush m]).
  split.
  - generalize (seq 0 m) as l. induction l as [|a l IH]; cbn [flat_map app fifo_legal length tl].
    + auto.
    + split; auto. split; [discriminate|]. exact IH.
  - unfold fifo_run. rewrite foldM_app.
    assert (H : forall k, k <= m -> exists dd, length dd = m /\
       foldM (fifo_step nat) (flat_map (fun x => [FPush x; FPop]) (seq 0 k)) (fifo_init nat 0 m)
       = Ret (mkFifo nat k k m dd)).
    { induction k as [|k IH]; intro Hk.
      - exists (repeat 0 m). rewrite repeat_length. auto.
      - destruct IH as [dd [L E]]; [lia|].
        rewrite seq_S, flat_map_app, foldM_app, E. cbn [bind flat_map app foldM fifo_step plus].
        unfold fifo_push. cbn [f_data f_end f_begin f_maxSize].
        rewrite wr_Ret by lia. cbn [bind]. exists (upd dd k k). split; [rewrite length_upd; auto|reflexivity]. }
    destruct (H m) as [dd [L E]]; auto. rewrite E. cbn [bind foldM fifo_step]. unfold fifo_push.
    cbn [f_data f_end]. unfold wr. destruct (Nat.ltb_spec m (length dd)); [lia|]. reflexivity.
Qed.
Print Assumptions C06_fifo_refuted_every_capacity.

(** Non-vacuity. *)
Example fifo_history_legal : fifo_legal_total nat 3 0 [] [FPush 1; FPush 2; FPop; FPush 3; FClear; FPush 4; FPush 5].
Proof. cbn. repeat split; try lia; discriminate. Qed.
Example fifo_history_spec : fifo_spec nat [FPush 1; FPush 2; FPop; FPush 3; FClear; FPush 4; FPush 5] = [4; 5].
Proof. reflexivity. Qed.

Example pq_history : list (pq_op nat) :=
  [QPush 3 30; QPush 0 10; QPush 1 20; QChange 3 5; QDelete 0; QPush 2 1; QPop].
Example pq_history_runs : exists q, pq_run nat 0 Nat.ltb 3 pq_history = Ret q /\ pq_top nat q = Ret (Some 3)
  /\ pq_size nat q = 2 /\ pq_priority nat q 3 = Ret 5.
Proof. eexists. vm_compute. repeat split; reflexivity. Qed.
Example pq_history_legal : pq_legal nat Nat.ltb 3 (pm_empty nat) pq_history.
Proof.
  cbn. repeat split; try lia; try discriminate; try (right; vm_compute; lia).
  exists 2. discriminate.
Qed.
