(** Specification for fusion moves, HQPBO and AlphaExpansionFusion. *)
From Coq Require Import QArith Qcanon.
From Verif Require Import Base GmView GmViewSpec DualDecompModel HoeModel HoeSpec FuseModel.
Open Scope nat_scope.

(** The energy of a labeling. *)
Definition clique_energy (cliques : list clique) (x : list nat) : Qc := qsum (map (fun c => snd c (at_vars x (fst c))) cliques).
Definition menergy (g : gmv Qc) (x : list nat) : Qc := total AdderQ g x.

(** What is known of QPBO: its labels never make an assignment of the quadratic energy worse. *)
Definition qpbo_solver (solve : qsolver) : Prop := forall q, q_closed q -> persistent (q_value q) (solve q).
(** A solver that labels all nodes (then its labels are a minimizer). *)
Definition complete_solver (solve : qsolver) : Prop := forall q i, q_closed q -> i < q_nodes q -> solve q i <> None.

(** Each variable has the label of x or the label of y. *)
Definition fused (x y z : list nat) : Prop := length z = length x /\ forall i, nth i z 0 = nth i x 0 \/ nth i z 0 = nth i y 0.
(** Cliques over different, existing variables, not more than D. *)
Definition cliques_ok (D n : nat) (cliques : list clique) : Prop :=
  Forall (fun c => NoDup (fst c) /\ Forall (fun v => v < n) (fst c) /\ length (fst c) <= D) cliques.

(** A model whose factors have at most d variables. *)
Definition order_at_most {T : Type} (d : nat) (g : gmv T) : Prop := Forall (fun fc => length (fst fc) <= d) (v_factors g).
Definition no_worse (g : gmv Qc) (x y : list nat) : Prop := (menergy g x <= menergy g y)%Qc.
Definition best_labeling (g : gmv Qc) (x : list nat) : Prop := labeling g x /\ forall y, labeling g y -> no_worse g x y.
(** y arises from x by changing some labels to a. *)
Definition expansion_of (a : nat) (x y : list nat) : Prop := length y = length x /\ forall v, v < length x -> nth v y 0 = nth v x 0 \/ nth v y 0 = a.
