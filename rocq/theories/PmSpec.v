(** What a user of PartitionMove relies on. *)
From Coq Require Import QArith Qcanon Permutation Relations.
From Verif Require Import Base Values GmView GmViewSpec ShapeSpec DualDecompModel FmProps DmcSpec FunctionPredicateProps.
Open Scope nat_scope.

(** The models of PartitionMove: at least as many labels as variables; factors of no variable, or of two variables that tell equal labels from different ones. *)
Definition partition_factor (g : gmv Qc) (fc : list nat * (list nat -> Qc)) : Prop :=
  length (fst fc) = 0 \/
  length (fst fc) = 2 /\ exists a b, forall x, labeling g x -> snd fc (at_vars x (fst fc)) = if nth 0 (at_vars x (fst fc)) 0 =? nth 1 (at_vars x (fst fc)) 0 then a else b.
Definition partition_model (g : gmv Qc) : Prop :=
  Forall (fun k => length (v_labels g) <= k) (v_labels g) /\ Forall (partition_factor g) (v_factors g).
(** No two factors with the same two variables. *)
Definition no_double (g : gmv Qc) : Prop := NoDup (map fst (filter (fun fc => length (fst fc) =? 2) (v_factors g))).
(** The order in which a hash set is iterated: every element once. *)
Definition iterates (order : list nat -> list nat) : Prop := forall s, Permutation (order s) s.
(** Integral costs of cutting. *)
Definition integral (g : gmv Qc) : Prop := Forall (fun fc => length (fst fc) = 2 -> exists z, cut_weight fc = Q2Qc (inject_Z z)) (v_factors g).
(** Two variables that attract each other: a factor makes different labels more expensive.  Connected by attraction. *)
Definition attracted (g : gmv Qc) (u v : nat) : Prop := exists fc, In fc (v_factors g) /\ (fst fc = [u; v] \/ fst fc = [v; u]) /\ (0 < cut_weight fc)%Qc.
Definition connected_by (g : gmv Qc) : nat -> nat -> Prop := clos_refl_trans nat (attracted g).
