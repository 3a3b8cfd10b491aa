(** Vocabulary for statements about CombiLP. *)
From Verif Require Import Base Values GmView GmViewSpec ShapeSpec SubmodelModel RedSpec.

Section Spec.
Context {T : Type}.
Variables (fin : T -> Prop) (OP : oper T) (ACC : accum T).

(** A reparametrization of a model: the same variables, labels and factors' variables, and every labeling has the same value. *)
Definition reparametrizes (g gr : gmv T) : Prop :=
  v_labels gr = v_labels g /\ map fst (v_factors gr) = map fst (v_factors g) /\ fin_gmv fin gr /\ forall x, labeling g x -> total OP gr x = total OP g x.
(** A labeling is best for each factor whose variables are all marked. *)
Definition locally_best (gr : gmv T) (marked : list bool) (x : list nat) : Prop :=
  forall fc, In fc (v_factors gr) -> Forall (fun v => nth v marked false = true) (fst fc) ->
  forall c, in_shape (at_vars (v_labels gr) (fst fc)) c -> a_bop ACC (snd fc c) (snd fc (at_vars x (fst fc))) = false.
(** A solver whose labelings are best *)
Definition ilp_exact (ilp : nat -> nat -> subgm T -> option (list nat)) : Prop :=
  forall i j gm a, usable fin OP gm -> ilp i j gm = Some a -> in_shape (s_labels gm) a /\
  forall y e e', in_shape (s_labels gm) y -> has_value OP gm a e -> has_value OP gm y e' -> a_bop ACC e' e = false.
(** A solver that does not fail *)
Definition ilp_complete (ilp : nat -> nat -> subgm T -> option (list nat)) : Prop := forall i j gm, usable fin OP gm -> ilp i j gm <> None.
End Spec.
