(** Specification for AlphaExpansionFusion, with FuseSpec.v. *)
From Coq Require Import QArith Qcanon Permutation.
From Verif Require Import Base GmView GmViewSpec FuseSpec AefModel.
Open Scope nat_scope.

(** Legal parameters: the order, if it is given or shuffled, is one of the labels 0, ..., k-1; LOCALOPT_LABEL needs the
    unary factors to be among the first factors. *)
Definition param_ok (k : nat) (g : gmv Qc) (p : aefparam) : Prop :=
  (match fp_order p with RANDOM_ORDER => Permutation (fp_shuffled p) (seq 0 k) | EXPLICIT_ORDER o => Permutation o (seq 0 k) | DEFAULT_ORDER => True end) /\
  (fp_init p = LOCALOPT_LABEL -> forall i fc, nth_error (v_factors g) i = Some fc -> length (fst fc) = 1 -> i < length (v_labels g)).
(** Legal calls. *)
Definition af_legal (g : gmv Qc) (o : afop) : Prop := match o with FStart x | FState x => labeling g x | _ => True end.
