(** C07: the numbering of partitions. *)
From Verif Require Import Base PartitionsModel PartitionsSpec PartitionsProofs.

(** For every order n <= 11 there is one index function [idx], independent of everything
    requested before, such that label2Index returns it from every reachable state of the static
    table; it is below BellNumber(n), surjective onto 0..BellNumber(n)-1, and equal for two
    labelings iff they induce the same partition. After resize(n), getPartition decodes every
    number k < BellNumber(n) to a labeling with index k. *)
Theorem C07_partition_numbering : forall n, n <= 11 -> exists idx : list nat -> nat,
  (forall t l, parts_reachable t -> length l = n ->
     exists t', label2Index t l = Ret (t', Some (idx l)) /\ parts_reachable t') /\
  (exists b, BellNumber n = Ret b /\
     (forall l, length l = n -> (N.of_nat (idx l) < b)%N) /\
     (forall k, (N.of_nat k < b)%N -> exists l, length l = n /\ idx l = k) /\
     (1 <= n -> forall t, parts_reachable t -> exists t', parts_resize t n = Ret t' /\ parts_reachable t' /\
        forall k buf, (N.of_nat k < b)%N -> length buf = n ->
        exists l, getPartition t' k buf = Ret l /\ length l = n /\ idx l = k)) /\
  (forall l l', length l = n -> length l' = n -> (idx l = idx l' <-> same_partition l l')).
Proof. exact C07_main. Qed.
Print Assumptions C07_partition_numbering.

(** Orders 12..15 are rejected by an exception in every reachable state. *)
Theorem C07_large_orders_throw : forall n t, parts_reachable t -> 12 <= n <= 15 ->
  parts_resize t n = Throw /\ forall l, length l = n -> label2Index t l = Throw.
Proof.
  intros n t Hr Hn. assert (E : buildPartitions t n = Throw) by (apply build_big; auto; apply reachable_TInv; auto).
  split; auto. intros l L. unfold label2Index. rewrite L, E. reflexivity.
Qed.
Print Assumptions C07_large_orders_throw.

(** Non-vacuity: a history that first asks for order 2, then for a larger order, then throws. *)
Example parts_history_reachable :
  parts_run [OLabel2Index [5; 5]; OResize 4; OResize 13; OLabel2Index [1; 0; 1]]
  = Ret [0; 1; 2; 4; 7; 8; 12; 16; 18; 25; 32; 33; 42; 52; 63]%N.
Proof. vm_compute. reflexivity. Qed.
Example parts_index_example :
  label2Index [] [7; 3; 7] = Ret ([0; 1; 2; 4; 7]%N, Some 2).
Proof. vm_compute. reflexivity. Qed.
Example parts_index_example_after :
  label2Index [0; 1; 2; 4; 7; 8; 12; 16; 18; 25; 32; 33; 42; 52; 63]%N [4; 0; 4]
  = Ret ([0; 1; 2; 4; 7; 8; 12; 16; 18; 25; 32; 33; 42; 52; 63]%N, Some 2).
Proof. vm_compute. reflexivity. Qed.
