(** Specification for C07. *)
From Verif Require Import Base PartitionsModel.

(** Two labelings induce the same partition of the positions. *)
Definition same_partition (l l' : list nat) : Prop :=
  length l = length l' /\
  forall i j, i < length l -> j < length l -> (nth i l 0 = nth j l 0 <-> nth i l' 0 = nth j l' 0).

Definition op_order (o : parts_op) : nat :=
  match o with OResize n => n | OLabel2Index l => length l end.

(** States of the static table after any history of requests (of orders for which a Bell number
    is tabulated; orders 12..15 throw). *)
Definition parts_reachable (t : list N) : Prop :=
  exists ops, (forall o, In o ops -> op_order o <= 15) /\ parts_run ops = Ret t.
