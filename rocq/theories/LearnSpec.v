(** Vocabulary for statements about functions with learnable weights. *)
From Coq Require Import Ring_theory.
From Verif Require Import Base ShapeSpec FunctionsModel FunctionsSpec LearnModel.

Section Spec.
Variable T : Type.
Variable zero : T.
Variables add mul : T -> T -> T.

(** The sum of a list of values. *)
Definition sum (l : list T) : T := fold_left add l zero.
(** The sum of w[id] * x over the pairs of a list of weight numbers and a list of features. *)
Definition weighted (w : list T) (ids : list nat) (xs : list T) : T := sum (map (fun p => mul (nth (fst p) w zero) (snd p)) (combine ids xs)).

(** The function is linear in its weights, with the reported gradients: with weights [w] its value is the sum, over the
    weights it reports, of the weight times the reported gradient. *)
Definition linear {F : Type} (L : learnable T F) (f : F) (sh : list nat) (number : nat) : Prop :=
  forall c, in_shape sh c -> exists ids grads, length ids = ln_numberOfWeights L f /\ length grads = ln_numberOfWeights L f /\
    (forall i, i < ln_numberOfWeights L f -> ln_weightIndex L f i = Ret (nth i ids 0) /\ nth i ids 0 < number /\ ln_weightGradient L f i c = Ret (nth i grads zero)) /\
    forall w, length w = number -> ft_call (ln_ft L) (ln_setWeights L w f) c = Ret (weighted w ids grads).

(** The reported gradient is the derivative: raising weight number [k] by [d] raises the value by [d] times the sum of
    the gradients that are reported for this weight. *)
Definition derivative {F : Type} (L : learnable T F) (f : F) (sh : list nat) (number : nat) : Prop :=
  forall c, in_shape sh c -> exists ids grads, length ids = ln_numberOfWeights L f /\ length grads = ln_numberOfWeights L f /\
    (forall i, i < ln_numberOfWeights L f -> ln_weightIndex L f i = Ret (nth i ids 0) /\ ln_weightGradient L f i c = Ret (nth i grads zero)) /\
    forall w k d, length w = number -> k < number -> exists a b,
      ft_call (ln_ft L) (ln_setWeights L w f) c = Ret a /\
      ft_call (ln_ft L) (ln_setWeights L (upd w k (add (nth k w zero) d)) f) c = Ret b /\
      b = add a (mul d (sum (map snd (filter (fun p => fst p =? k) (combine ids grads))))).
End Spec.
