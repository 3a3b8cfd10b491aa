(** Specification for the decompositions of TRWS. *)
From Verif Require Import Base GmView.

(** The number of factors that depend on variable v alone. *)
Definition unaries {T : Type} (g : gmv T) (v : nat) : nat := length (filter (fun fc => match fst fc with [w] => w =? v | _ => false end) (v_factors g)).
(** The factors of two variables, in ascending order. *)
Definition pairwise {T : Type} (g : gmv T) : list nat := filter (fun f => match nth_error (v_factors g) f with Some ([_; _], _) => true | _ => false end) (seq 0 (length (v_factors g))).
(** From variable v on, the variables ascend, and each factor is the one of its variable and the next. *)
Fixpoint chain {T : Type} (g : gmv T) (v : nat) (vars facs : list nat) : Prop :=
  match vars, facs with
  | [], [] => True
  | w :: vars, f :: facs => v < w /\ (exists t, nth_error (v_factors g) f = Some ([v; w], t)) /\ chain g w vars facs
  | _, _ => False
  end.
(** A sub-model with at least one factor that is a chain. *)
Definition is_chain {T : Type} (g : gmv T) (s : list nat * list nat) : Prop := exists v vars f facs, s = (v :: vars, f :: facs) /\ chain g v vars (f :: facs).
(** Each factor depends on its variable of the list and the next. *)
Definition path {T : Type} (g : gmv T) (s : list nat * list nat) : Prop :=
  length (fst s) = S (length (snd s)) /\
  forall i, i < length (snd s) -> exists fc, nth_error (v_factors g) (nth i (snd s) 0) = Some fc /\ In (nth i (fst s) 0) (fst fc) /\ In (nth (S i) (fst s) 0) (fst fc).
(** All positions in the lists of variables: sub-model and index, in lexicographic order. *)
Definition positions (subs : list (list nat * list nat)) : list (nat * nat) :=
  concat (map (fun m => map (pair m) (seq 0 (length (nth m (map fst subs) [])))) (seq 0 (length subs))).
(** A grid of xs columns and ys rows in the order of factors that the decomposition expects: for every row, after the factors of one variable, the factors to the right and
    down of each of its variables. *)
Definition grid {T : Type} (g : gmv T) (xs ys : nat) : Prop :=
  let n := length (v_labels g) in
  n = xs * ys /\ 2 <= xs /\ 1 <= ys /\ length (v_factors g) = n + ((xs - 1) * ys + xs * (ys - 1)) /\
  forall x y, x < xs -> y < ys ->
  (x + 1 < xs -> exists t, nth_error (v_factors g) (n + y * (2 * xs - 1) + (if y + 1 =? ys then x else 2 * x)) = Some ([x + xs * y; x + 1 + xs * y], t)) /\
  (y + 1 < ys -> exists t, nth_error (v_factors g) (n + y * (2 * xs - 1) + (if x + 1 =? xs then 2 * x else 2 * x + 1)) = Some ([x + xs * y; x + xs * (y + 1)], t)).
