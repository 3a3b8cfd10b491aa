(** What a user of GreedyGremlin relies on. *)
From Coq Require Import Relations Permutation.
From Verif Require Import Base Values GmView GmViewSpec.

Definition member (v : nat) (l : list nat) : bool := existsb (Nat.eqb v) l.
(** Two variables of one factor, and connected variables. *)
Definition adjacent {T : Type} (g : gmv T) (u v : nat) : bool := existsb (fun fc => member u (fst fc) && member v (fst fc)) (v_factors g).
Definition linked {T : Type} (g : gmv T) : nat -> nat -> Prop := clos_refl_trans nat (fun u v => adjacent g u v = true).
(** The factors of variable [v] that have only variables of [keep], combined. *)
Definition value_within {T : Type} (OP : oper T) (g : gmv T) (keep : nat -> bool) (v : nat) (x : list nat) : T :=
  fold_left (fun acc fc => if member v (fst fc) && forallb keep (fst fc) then o_op OP (snd fc (at_vars x (fst fc))) acc else acc) (v_factors g) (o_neutral OP).
(** [x] has for variable [v] a best label: no other makes these factors better. *)
Definition best_label {T : Type} (OP : oper T) (ACC : accum T) (g : gmv T) (keep : nat -> bool) (v : nat) (x : list nat) : Prop :=
  forall l, l < nth v (v_labels g) 0 -> a_bop ACC (value_within OP g keep v (upd x v l)) (value_within OP g keep v x) = false.
(** Variable 0 and the variables that share a factor with one of [done]. *)
Definition reached {T : Type} (g : gmv T) (done : list nat) (u : nat) : bool := (u =? 0) || existsb (fun w => adjacent g w u) done.
(** The labels [x] for the variables [done], [c] for the others. *)
Definition mixed (x c : list nat) (done : list nat) : list nat := map (fun v => if member v done then nth v x 0 else nth v c 0) (seq 0 (length x)).
(** A tree with root 0: [parent] leads towards 0, every other variable shares a factor with its parent, and no factor has other variables than one variable and its parent. *)
Definition rooted_tree {T : Type} (g : gmv T) (parent depth : nat -> nat) : Prop :=
  (forall v, 0 < v < length (v_labels g) -> parent v < length (v_labels g) /\ depth (parent v) < depth v /\ adjacent g v (parent v) = true) /\
  (forall fc, In fc (v_factors g) -> exists v, (v = 0 /\ incl (fst fc) [0]) \/ (0 < v < length (v_labels g) /\ incl (fst fc) [v; parent v])).
