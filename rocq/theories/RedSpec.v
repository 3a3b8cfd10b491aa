(** Specification for ReducedInference. *)
From Coq Require Import QArith Qcanon.
From Verif Require Import Base Values GmView GmViewSpec ShapeSpec SubmodelModel RedModel.
Open Scope nat_scope.

Section Spec.
Context {T : Type}.
Variables (fin : T -> Prop) (OP : oper T) (ACC : accum T).

(** A reduced model an algorithm can work on: every variable has a label and every labeling has a value. *)
Definition has_value (gm : subgm T) (y : list nat) (e : T) : Prop := exists gm', sub_evaluate T OP gm y = Ret (gm', e).
Definition usable (gm : subgm T) : Prop :=
  positive (s_labels gm) /\ forall y, in_shape (s_labels gm) y -> exists e, has_value gm y e /\ fin e.
(** An algorithm that labels every such model, *)
Definition labels_all (inf : subgm T -> outcome (list nat * T)) : Prop :=
  forall gm, usable gm -> exists a b, inf gm = Ret (a, b) /\ in_shape (s_labels gm) a.
(** whose labelings are the best ones, *)
Definition exact (inf : subgm T -> outcome (list nat * T)) : Prop :=
  forall gm a b, usable gm -> inf gm = Ret (a, b) -> forall y e e', in_shape (s_labels gm) y -> has_value gm a e -> has_value gm y e' -> a_bop ACC e' e = false.
(** and whose bounds no labeling beats. *)
Definition bounding (inf : subgm T -> outcome (list nat * T)) : Prop :=
  forall gm a b, usable gm -> inf gm = Ret (a, b) -> fin b /\ forall y e, in_shape (s_labels gm) y -> has_value gm y e -> a_bop ACC e b = false.

Variable g : gmv T.
(** A result of partial optimality has a flag for each variable and a label of it if the flag is set. *)
Definition finds (f : found T) : Prop :=
  length (f_arg f) = length (v_labels g) /\ length (f_opt f) = length (v_labels g) /\
  forall v, v < length (v_labels g) -> nth v (f_opt f) false = true -> nth v (f_arg f) 0 < nth v (v_labels g) 0.
(** It is right if some optimal labeling has these labels. *)
Definition right (f : found T) : Prop :=
  exists z, optimal OP ACC g z /\ forall v, v < length (v_labels g) -> nth v (f_opt f) false = true -> nth v z 0 = nth v (f_arg f) 0.
(** No labeling is better than [b]. *)
Definition bounds (b : T) : Prop := forall z, labeling g z -> a_bop ACC (total OP g z) b = false.
End Spec.
