(** Specification for C04: a mathematical set of keys, up to the equivalence induced by the
    comparator, evolving under the public operations. *)
From Coq Require Import Sorted.
From Verif Require Import Base RandomAccessSetModel.

Section Spec.
Variable K : Type.
Variable lt : K -> K -> bool.

(** The requirement C++ puts on comparators. *)
Record strict_weak_order : Prop := {
  swo_irrefl : forall a, lt a a = false;
  swo_trans : forall a b c, lt a b = true -> lt b c = true -> lt a c = true;
  swo_incomp : forall a b c, lt a b = false -> lt b a = false ->
                             lt b c = false -> lt c b = false ->
                             lt a c = false /\ lt c a = false }.

(** Two keys are the same key for the set. *)
Definition eqv (a b : K) : Prop := lt a b = false /\ lt b a = false.

Definition ascending (l : list K) : Prop := StronglySorted (fun a b => lt a b = true) l.

Definition contains (l : list K) (k : K) : Prop := exists x, In x l /\ eqv k x.

Definition kset := K -> Prop.

(** [x] is the [i]-th smallest key of [S] (counting from 0). *)
Definition nth_smallest (S : kset) (i : nat) (x : K) : Prop :=
  exists l, ascending l /\ (forall k, S k <-> contains l k) /\ nth_error l i = Some x.

(** [n] is the number of keys of [S]. *)
Definition cardinality (S : kset) (n : nat) : Prop :=
  exists l, ascending l /\ (forall k, S k <-> contains l k) /\ length l = n.

Inductive set_step (S : kset) : ras_op K -> kset -> Prop :=
| ss_insert : forall v, set_step S (RInsert v) (fun k => S k \/ eqv k v)
| ss_insert_range : forall l, set_step S (RInsertRange l) (fun k => S k \/ contains l k)
| ss_erase : forall v, set_step S (REraseKey v) (fun k => S k /\ ~ eqv k v)
| ss_erase_pos : forall i x, nth_smallest S i x ->
    set_step S (RErasePos i) (fun k => S k /\ ~ eqv k x)
| ss_erase_range : forall i j n, cardinality S n -> i <= j <= n ->
    set_step S (REraseRange i j)
      (fun k => S k /\ ~ exists p x, i <= p < j /\ nth_smallest S p x /\ eqv k x)
| ss_clear : set_step S RClear (fun _ => False)
| ss_assign : forall l, ascending l -> set_step S (RAssignFromSet l) (contains l).

Inductive set_run (S : kset) : list (ras_op K) -> kset -> Prop :=
| sr_nil : set_run S [] S
| sr_cons : forall o ops S1 S2, set_step S o S1 -> set_run S1 ops S2 -> set_run S (o :: ops) S2.

End Spec.
