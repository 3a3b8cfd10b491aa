(** C04: opengm::RandomAccessSet. *)
From Coq Require Import Sorted.
From Verif Require Import Base RandomAccessSetModel RandomAccessSetSpec RandomAccessSetProofs.

(** After every history of public operations that is legal for a mathematical set
    ([set_run], RandomAccessSetSpec.v), the container iterates over exactly the keys of that set
    in strictly increasing order, and find, count, lower_bound, upper_bound, equal_range, insert
    and erase agree with membership in it. *)
Theorem C04_random_access_set : forall (K : Type) (lt : K -> K -> bool), strict_weak_order K lt ->
  forall ops S, set_run K lt (fun _ => False) ops S ->
  exists v, ras_run K lt ops = Ret v /\ ascending K lt v /\ (forall k, S k <-> contains K lt v k) /\
  forall k, (S k \/ ~ S k) /\
   (exists i, ras_find K lt v k = Ret i /\
      (S k -> exists x, nth_error v i = Some x /\ eqv K lt k x) /\ (~ S k -> i = length v)) /\
   (exists c, ras_count K lt v k = Ret c /\ (S k -> c = 1) /\ (~ S k -> c = 0)) /\
   (exists l u, ras_lower_bound K lt v k = Ret l /\ ras_upper_bound K lt v k = Ret u /\
      ras_equal_range K lt v k = Ret (l, u) /\ l <= u <= length v /\
      (forall j x, nth_error v j = Some x -> (j < l <-> lt x k = true) /\ (u <= j <-> lt k x = true))) /\
   (exists v' i ins, ras_insert K lt v k = Ret (v', i, ins) /\
      (ins = true <-> ~ S k) /\
      (exists x, nth_error v' i = Some x /\ eqv K lt k x /\ (ins = true -> x = k)) /\
      (ins = false -> v' = v) /\
      (ins = true -> length v' = Datatypes.S (length v) /\ forall x, In x v' <-> x = k \/ In x v)) /\
   (exists v' c, ras_erase_key K lt v k = Ret (v', c) /\ (S k -> c = 1) /\ (~ S k -> c = 0 /\ v' = v)).
Proof. exact C04_main. Qed.
Print Assumptions C04_random_access_set.

(** swap copies the comparator in one direction only: with stateful comparators the second set
    ends up holding keys that are not ascending for its comparator. *)
Theorem C04_swap_refuted :
  exists a b : list nat * (nat -> nat -> bool),
    strict_weak_order nat (snd a) /\ strict_weak_order nat (snd b) /\
    ascending nat (snd a) (fst a) /\ ascending nat (snd b) (fst b) /\
    let '(_, b') := ras_swap a b in ~ ascending nat (snd b') (fst b').
Proof.
  exists ([1; 2], Nat.ltb), ([2; 1], fun x y => Nat.ltb y x). cbn [fst snd ras_swap].
  split; [split; intros *; cbv beta; rewrite ?Nat.ltb_lt, ?Nat.ltb_ge; lia|].
  split; [split; intros *; cbv beta; rewrite ?Nat.ltb_lt, ?Nat.ltb_ge; lia|].
  split; [repeat constructor|]. split; [repeat constructor|].
  intro H. inversion H as [|? ? _ F]. inversion F. discriminate.
Qed.
Print Assumptions C04_swap_refuted.

(** Non-vacuity. *)
Example nat_order : strict_weak_order nat Nat.ltb.
Proof. split; intros *; rewrite ?Nat.ltb_lt, ?Nat.ltb_ge; lia. Qed.

Example ras_history : list (ras_op nat) :=
  [RInsert 5; RInsertRange [2; 9; 5; 7]; REraseKey 9; RInsert 1; RErasePos 1; RInsert 4].
Example ras_history_runs : ras_run nat Nat.ltb ras_history = Ret [1; 4; 5; 7].
Proof. reflexivity. Qed.
(** The specification accepts this history as well. *)
Example ras_history_legal : exists S, set_run nat Nat.ltb (fun _ => False) ras_history S.
Proof.
  assert (EQ : forall a b, eqv nat Nat.ltb a b <-> a = b).
  { intros. unfold eqv. rewrite !Nat.ltb_ge. lia. }
  assert (CT : forall l k, contains nat Nat.ltb l k <-> In k l).
  { intros l k. unfold contains. split.
    - intros [x [Hx E]]. apply EQ in E. subst. auto.
    - intro H. exists k. split; auto. apply EQ. auto. }
  eexists. unfold ras_history.
  eapply sr_cons; [apply ss_insert|]. eapply sr_cons; [apply ss_insert_range|].
  eapply sr_cons; [apply ss_erase|]. eapply sr_cons; [apply ss_insert|].
  eapply sr_cons; [apply (ss_erase_pos _ _ _ 1 2)|].
  { exists [1; 2; 5; 7]. split; [repeat constructor|]. split; [|reflexivity].
    intro k. rewrite !CT, !EQ. simpl. lia. }
  eapply sr_cons; [apply ss_insert|]. apply sr_nil.
Qed.
