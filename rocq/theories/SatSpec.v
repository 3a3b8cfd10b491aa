(** What a user of SAT relies on. *)
From Verif Require Import Base Values GmView GmViewSpec SatModel.
From Coq Require Import Relation_Operators.

(** strong_components: two vertices get the same component exactly if each can be reached from the other. *)
Definition step (es : list (nat * nat)) (a b : nat) : Prop := In (a, b) es.
Definition reaches (es : list (nat * nat)) : nat -> nat -> Prop := clos_refl_trans nat (step es).
Definition components_of (n : nat) (es : list (nat * nat)) (comp : list nat) : Prop :=
  length comp = n /\
  forall a b, a < n -> b < n -> (nth a comp 0 = nth b comp 0 <-> reaches es a b /\ reaches es b a).
Definition finds_components (scc : nat -> list (nat * nat) -> list nat) : Prop :=
  forall n es, Forall (fun e => fst e < n /\ snd e < n) es -> components_of n es (scc n es).

(** Two labels for each variable, two variables for each factor. *)
Definition two_sat (g : gmv bool) : Prop :=
  wf_gmv g /\ Forall (eq 2) (v_labels g) /\ Forall (fun fc => length (fst fc) = 2) (v_factors g).
(** A labeling at which all factors are true. *)
Definition satisfying (g : gmv bool) (x : list nat) : Prop :=
  labeling g x /\ Forall (fun fc => snd fc (at_vars x (fst fc)) = true) (v_factors g).
