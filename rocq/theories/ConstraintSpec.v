(** Specification for C50 and C51: constraint functions as users see them. *)
From Coq Require Import QArith Qcanon Sorted Permutation.
From Verif Require Import Base ShapeSpec FunctionsModel FunctionsSpec ConstraintModel.
Open Scope nat_scope.

(** Does the labeling [x] make the indicator variable true?  All, some or none of its variables take the label named with them. *)
Definition holds (v : iv) (x : list nat) : bool :=
  let hit := fun p : nat * nat => nth (fst p) x 0 =? snd p in
  match iv_op v with And => forallb hit (iv_pairs v) | Or => existsb hit (iv_pairs v) | Not => negb (existsb hit (iv_pairs v)) end.
(** The labeling as numbers 0 and 1 for indicator variables. *)
Definition indicated (x : list nat) (v : iv) : Qc := if holds v x then 1%Qc else 0%Qc.

Definition Qc_sum (l : list Qc) : Qc := fold_right Qcplus 0%Qc l.
(** The left hand side of a linear constraint, for numbers [val] assigned to the indicator variables. *)
Definition lhs (c : lc) (val : iv -> Qc) : Qc := Qc_sum (map (fun p => (snd p * val (fst p))%Qc) (combine (lc_ivs c) (lc_coeffs c))).
(** The constraint holds up to the tolerance [tol]. *)
Definition within (c : lc) (val : iv -> Qc) (tol : Qc) : Prop :=
  match lc_op c with
  | LessEqual => (lhs c val <= lc_bound c + tol)%Qc
  | Equal => (lc_bound c - tol <= lhs c val)%Qc /\ (lhs c val <= lc_bound c + tol)%Qc
  | GreaterEqual => (lc_bound c - tol <= lhs c val)%Qc
  end.
(** By how much a violated constraint is violated. *)
Definition excess (c : lc) (val : iv -> Qc) : Qc :=
  match lc_op c with
  | LessEqual => (lhs c val - lc_bound c)%Qc
  | Equal => if Qclt_le_dec (lc_bound c) (lhs c val) then (lhs c val - lc_bound c)%Qc else (lc_bound c - lhs c val)%Qc
  | GreaterEqual => (lc_bound c - lhs c val)%Qc
  end.
(** [r] lists, in order, the numbers of exactly those constraints that are violated by more than [tol], each with its violation. *)
Definition reports (cs : list lc) (val : iv -> Qc) (tol : Qc) (r : list (nat * Qc)) : Prop :=
  StronglySorted lt (map fst r) /\
  forall i w, In (i, w) r <-> exists c, nth_error cs i = Some c /\ ~ within c val tol /\ w = excess c val.

(** A constraint function [f] of extents [sh], as its users rely on it: it is [valid] where its linear constraints hold up to
    [tol0] and [invalid] elsewhere; challenge names the violated constraints of a labeling, challengeRelaxed those of any assignment
    of numbers to the indicator variables in their reported order, which has every indicator variable of every constraint once. *)
Definition constraint_function {F : Type} (CF : cftype F) (f : F) (sh : list nat) (valid invalid tol0 : Qc) : Prop :=
  has_shape (cf_ft CF) f sh /\
  (forall x, in_shape sh x -> exists v, ft_call (cf_ft CF) f x = Ret v /\
     (Forall (fun c => within c (indicated x) tol0) (cf_constraints CF f) -> v = valid) /\
     (~ Forall (fun c => within c (indicated x) tol0) (cf_constraints CF f) -> v = invalid)) /\
  (forall x tol, in_shape sh x -> (0 <= tol)%Qc -> exists r, cf_challenge CF f x tol = Ret r /\ reports (cf_constraints CF f) (indicated x) tol r) /\
  (forall val more tol, (0 <= tol)%Qc -> exists r, cf_relaxed CF f (map val (cf_indicators CF f) ++ more) tol = Ret r /\ reports (cf_constraints CF f) val tol r) /\
  NoDup (cf_indicators CF f) /\ (forall c v, In c (cf_constraints CF f) -> In v (lc_ivs c) -> In v (cf_indicators CF f)).

(** What std::sort needs of the comparison on the elements it sorts. *)
Definition strict_weak {A : Type} (lt : A -> A -> bool) (l : list A) : Prop :=
  (forall a, In a l -> lt a a = false) /\
  (forall a b c, In a l -> In b l -> In c l -> lt a b = true -> lt b c = true -> lt a c = true) /\
  (forall a b c, In a l -> In b l -> In c l -> lt a b = false -> lt b a = false -> lt b c = false -> lt c b = false -> lt a c = false).
(** std::sort: a permutation in which no element is less than an earlier one; nothing is said where the comparison is no
    strict weak ordering. *)
Definition sorts {A : Type} (lt : A -> A -> bool) (sort : list A -> outcome (list A)) : Prop :=
  forall l, strict_weak lt l -> exists l', sort l = Ret l' /\ Permutation l l' /\ StronglySorted (fun a b => lt b a = false) l'.

(** Indicator variables as the constructors and add make them, and linear constraints with one coefficient for each indicator variable
    over variables and labels of the shape. *)
Definition iv_made (v : iv) : Prop := exists pairs, v = iv_new pairs (iv_op v).
Definition lc_legal (sh : list nat) (c : lc) : Prop :=
  length (lc_coeffs c) = length (lc_ivs c) /\ Forall (fun v => iv_made v /\ Forall (fun p => fst p < length sh /\ snd p < nth (fst p) sh 0) (iv_pairs v)) (lc_ivs c).
(** The indicator variables of all constraints. *)
Definition all_ivs (cs : list lc) : list iv := concat (map lc_ivs cs).

(** The number of different labels in [x]. *)
Definition labels_used (x : list nat) : nat := length (nodup Nat.eq_dec x).

(** The coefficients that the labeling [x] selects: one table for all variables, or one table for each variable, the tables one
    after the other. *)
Definition table_start (share : bool) (sh : list nat) (i : nat) : nat := if share then 0 else list_sum (firstn i sh).
Definition selected (share : bool) (sh : list nat) (coeffs : list Qc) (x : list nat) : list Qc :=
  map (fun i => nth (table_start share sh i + nth i x 0) coeffs 0%Qc) (seq 0 (length sh)).
(** All tables are there. *)
Definition tables_fit (share : bool) (sh : list nat) (coeffs : list Qc) : Prop :=
  forall i, i < length sh -> table_start share sh i + nth i sh 0 <= length coeffs.
Definition absolute (a : Qc) : Qc := if Qclt_le_dec a 0 then (- a)%Qc else a.
