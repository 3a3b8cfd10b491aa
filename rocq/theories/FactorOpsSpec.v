(** Specification vocabulary for factors as functions of labelings. *)
From Coq Require Import Sorted.
From Verif Require Import Base ShapeSpec FactorOpsModel.

(** A labeling assigns a label to every variable; it is legal for variables with [nl v] labels. *)
Definition legal (nl : nat -> nat) (vars : list nat) (x : nat -> nat) : Prop :=
  forall v, In v vars -> x v < nl v.

(** The labeling x, except that the i-th of [vars] has the i-th of the labels [c]. *)
Fixpoint override (x : nat -> nat) (vars c : list nat) : nat -> nat :=
  match vars, c with
  | v :: vs, l :: ls => fun u => if Nat.eqb u v then l else override x vs ls u
  | _, _ => x
  end.

Section Spec.
Variable V : Type.

(** The function f, connected to the variables [vars], has as many labels in each dimension as the
    variable has, and its value at the labels of any legal labeling x is F x. An iterator to the
    labels may be continued by anything. *)
Definition represents (nl : nat -> nat) (f : fn V) (vars : list nat) (F : (nat -> nat) -> V) : Prop :=
  StronglySorted lt vars /\ f_shape f = map nl vars /\ (forall v, In v vars -> 0 < nl v) /\
  forall x rest, legal nl vars x -> f_read f (map x vars ++ rest) = Ret (F x).

(** The same for a value table, whose block has one entry for each tuple of labels. *)
Definition factor_is (nl : nat -> nat) (t : table V) (vars : list nat) (F : (nat -> nat) -> V) : Prop :=
  represents nl (t_fn V t) vars F /\ length (t_data t) = size_of (map nl vars).

(** All tuples of labels of the given variables, first variable fastest. *)
Definition tuples (nl : nat -> nat) (vars : list nat) : list (list nat) :=
  map (coord_of (map nl vars)) (seq 0 (size_of (map nl vars))).

(** The values F takes if the variables [vars] run through all their labels while all others are
    labeled by x. *)
Definition values_over (nl : nat -> nat) (vars : list nat) (F : (nat -> nat) -> V) (x : nat -> nat) : list V :=
  map (fun c => F (override x vars c)) (tuples nl vars).

(** Accumulation of a sequence of values, starting with the neutral element. *)
Definition accumulate_values (op3 : V -> V -> V) (neutral : V) (l : list V) : V :=
  fold_left (fun r v => op3 v r) l neutral.
End Spec.
