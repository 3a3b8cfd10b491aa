(** What a user of DMC relies on. *)
From Coq Require Import QArith Qcanon.
From Verif Require Import Base Values GmView GmViewSpec DualDecompModel FmProps.
Open Scope nat_scope.

(** A multicut problem: as many labels as variables, and factors of two variables that tell equal labels from different ones. *)
Definition multicut (g : gmv Qc) : Prop :=
  v_labels g = repeat (length (v_labels g)) (length (v_labels g)) /\
  Forall (fun fc => exists i j a b, fst fc = [i; j] /\ i < j < length (v_labels g) /\ forall l0 l1, snd fc [l0; l1] = if l0 =? l1 then a else b) (v_factors g).
(** The gain or cost of different labels. *)
Definition cut_weight (fc : list nat * (list nat -> Qc)) : Qc := (snd fc [0; 1]%nat - snd fc [0; 0]%nat)%Qc.
(** No weight is beyond the threshold but negative, and the threshold is not positive. *)
Definition no_gap (threshold : Qc) (g : gmv Qc) : Prop :=
  (threshold <= 0)%Qc /\ Forall (fun fc => cut_weight fc <= threshold \/ 0 <= cut_weight fc)%Qc (v_factors g).
(** No two factors with the same variables. *)
Definition no_parallel (g : gmv Qc) : Prop := NoDup (map fst (v_factors g)).
(** The inference returns labelings; optimal ones. *)
Definition dm_labels (solve : gmv Qc -> outcome (list nat)) : Prop := forall g, multicut g -> exists x, solve g = Ret x /\ labeling g x.
Definition dm_exact (solve : gmv Qc -> outcome (list nat)) : Prop := forall g x, multicut g -> solve g = Ret x -> optimal AdderQ MinimizerQ g x.
