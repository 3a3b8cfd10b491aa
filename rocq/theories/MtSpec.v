(** Specification for modelTrees. *)
From Verif Require Import Base GmView SwSpec.

(** Following the parents from a variable leads to another one, which is its own parent. *)
Inductive leads (parent : nat -> nat) : nat -> nat -> Prop :=
| leads_root : forall r, parent r = r -> leads parent r r
| leads_up : forall v r, parent v <> v -> leads parent (parent v) r -> leads parent v r.
(** The parents and trees of the variables of a model with n variables: a variable that belongs to no tree has n for both and is no parent, a root is its own parent and
    that of another variable, and every other variable has a parent with which it shares a factor, and from which one gets to its root. *)
Definition forest {T : Type} (g : gmv T) (parent tree : nat -> nat) : Prop :=
  let n := length (v_labels g) in
  forall v, v < n ->
  (parent v = n /\ tree v = n /\ forall w, w < n -> parent w <> v) \/
  (parent v = v /\ tree v = v /\ exists w, w < n /\ w <> v /\ parent w = v) \/
  (parent v < n /\ touching g v (parent v) /\ tree v < n /\ leads parent v (tree v)).
(** Every variable of the set shares factors with two other variables of the set. *)
Definition cyclic {T : Type} (g : gmv T) (S : nat -> Prop) : Prop :=
  forall v, S v -> v < length (v_labels g) /\ exists a b, a <> b /\ S a /\ S b /\ touching g v a /\ touching g v b.
(** Two variables are connected. *)
Inductive joined {T : Type} (g : gmv T) : nat -> nat -> Prop :=
| joined_one : forall u v, touching g u v -> joined g u v
| joined_more : forall u v w, touching g u v -> joined g v w -> joined g u w.
