(** Vocabulary for statements about reparametrized models. *)
From Coq Require Import ZArith QArith Qcanon.
From Verif Require Import Base Values GmView GmViewSpec ShapeSpec DualDecompModel.
Open Scope nat_scope.

(** Sums *)
Definition sum_over {A : Type} (l : list A) (h : A -> Qc) : Qc := fold_right (fun a r => (h a + r)%Qc) 0%Qc l.
Definition Qc_of_nat (n : nat) : Qc := Q2Qc (inject_Z (Z.of_nat n)).

Definition pairwise_or_more (fc : list nat * (list nat -> Qc)) : Prop := 2 <= length (fst fc).
(** Every factor has a variable. *)
Definition no_constants (g : gmv Qc) : Prop := Forall (fun fc => fst fc <> []) (v_factors g).
(** The number of unary factors of a variable *)
Definition unaries (g : gmv Qc) (v : nat) : nat :=
  length (filter (fun fc : list nat * (list nat -> Qc) => match fst fc with [u] => u =? v | _ => false end) (v_factors g)).
(** The variable occurs in a factor with other variables. *)
Definition linked (g : gmv Qc) (v : nat) : Prop := exists fc, In fc (v_factors g) /\ pairwise_or_more fc /\ In v (fst fc).
(** Every variable has exactly one unary factor, or none and then it has no other factors. *)
Definition one_unary_each (g : gmv Qc) : Prop :=
  forall v, v < length (v_labels g) -> unaries g v = 1 \/ unaries g v = 0 /\ ~ linked g v.
(** Every variable of a factor with several variables has a unary factor. *)
Definition covered (g : gmv Qc) : Prop := forall v, linked g v -> 0 < unaries g v.

(** The number of values of a reparametrization: for each factor with several variables and each of its variables, one for each label. *)
Definition dual_size (g : gmv Qc) : nat :=
  list_sum (map (fun fc : list nat * (list nat -> Qc) => if 2 <=? length (fst fc) then list_sum (at_vars (v_labels g) (fst fc)) else 0) (v_factors g)).

(** A number is the worst value of a function of some labels. *)
Definition worst_of (mx : bool) (shape : list nat) (F : list nat -> Qc) (w : Qc) : Prop :=
  (exists c, in_shape shape c /\ F c = w) /\ forall c, in_shape shape c -> better mx w (F c) = false.
(** a is not more than s worse than b. *)
Definition within (mx : bool) (s a b : Qc) : Prop := if mx then (b - s <= a)%Qc else (a <= b + s)%Qc.
