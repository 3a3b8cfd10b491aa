(** Specification for PrimalLPBound. *)
From Coq Require Import QArith Qcanon.
From Verif Require Import Base Values GmView GmViewSpec ConstraintModel DualDecompProofs LpbModel.
Open Scope nat_scope.

(** The vectors that the user has set last, zero at first *)
Fixpoint vectors_from (X : list (list Qc)) (h : list lop) : list (list Qc) :=
  match h with
  | [] => X
  | LSet v x :: h => vectors_from (upd X v x) h
  | _ :: h => vectors_from X h
  end.
Definition vectors (g : gmv Qc) (h : list lop) : list (list Qc) := vectors_from (map (fun k => repeat 0%Qc k) (v_labels g)) h.

(** The inner product of a vector and the table of a factor of one variable *)
Definition inner (x : list Qc) (t : list nat -> Qc) : Qc := qsum (fun i => nth i x 0 * t [i])%Qc (seq 0 (length x)).
(** What a factor contributes for given vectors, computed anew *)
Definition contribution {M : Type} (solve : (list nat -> Qc) -> list Qc -> list Qc -> option (Qc * M)) (X : list (list Qc)) (fc : list nat * (list nat -> Qc)) : option Qc :=
  match fst fc with
  | [v] => Some (inner (nth v X []) (snd fc))
  | [v; w] => match solve (snd fc) (nth v X []) (nth w X []) with Some (q, _) => Some q | None => None end
  | _ => None
  end.
(** The sum, if all are defined *)
Fixpoint sum_all (l : list (option Qc)) : option Qc :=
  match l with
  | [] => Some 0%Qc
  | a :: l => match a, sum_all l with Some q, Some r => Some (q + r)%Qc | _, _ => None end
  end.
Definition unary_of (v : nat) (fc : list nat * (list nat -> Qc)) : bool := match fst fc with [w] => w =? v | _ => false end.
(** Every variable has at most one factor of its own. *)
Definition single_unaries (g : gmv Qc) : Prop := forall v, length (filter (unary_of v) (v_factors g)) <= 1.

(** Calls with variables, vectors and factors of the model *)
Definition pair_factor (g : gmv Qc) (f : nat) : Prop := exists fc, nth_error (v_factors g) f = Some fc /\ length (fst fc) = 2.
Definition lop_ok (g : gmv Qc) (o : lop) : Prop :=
  match o with
  | LSet v x => v < length (v_labels g) /\ length x = nth v (v_labels g) 0
  | LGet v | LVar v => v < length (v_labels g)
  | LTotal => True
  | LFactor f | LMatrix f => pair_factor g f
  end.
(** No exception came from getTotalValue() since the last setVariable() *)
Fixpoint unbroken {M : Type} (b : bool) (h : list lop) (rs : list (lres M)) : bool :=
  match h, rs with
  | LSet _ _ :: h, _ :: rs => unbroken true h rs
  | LTotal :: h, LThrown :: rs => unbroken false h rs
  | _ :: h, _ :: rs => unbroken b h rs
  | _, _ => b
  end.
(** Whether a call can make the solver work on a factor *)
Definition asks (f : nat) (o : lop) : Prop := match o with LTotal => True | LFactor k | LMatrix k => k = f | _ => False end.
Definition no_matrix (o : lop) : Prop := match o with LMatrix _ => False | _ => True end.

(** What a solver must do: the solution has the given marginals, no negative entry, and the value is its cost. *)
Definition transport {M : Type} (entry : M -> nat -> nat -> Qc) (solve : (list nat -> Qc) -> list Qc -> list Qc -> option (Qc * M)) : Prop := forall t a b q m, solve t a b = Some (q, m) ->
  (forall i j, 0 <= entry m i j)%Qc /\
  (forall i, i < length a -> qsum (fun j => entry m i j) (seq 0 (length b)) = nth i a 0%Qc) /\
  (forall j, j < length b -> qsum (fun i => entry m i j) (seq 0 (length a)) = nth j b 0%Qc) /\
  q = qsum (fun i => qsum (fun j => entry m i j * t [i; j])%Qc (seq 0 (length b))) (seq 0 (length a)).
(** The vector of a label *)
Definition indicator (k l : nat) : list Qc := map (fun i => if i =? l then 1%Qc else 0%Qc) (seq 0 k).
(** What a call must give, for the vectors that were set.  (For the solution of a factor, see the theorems.) *)
Definition right_answer {M : Type} (solve : (list nat -> Qc) -> list Qc -> list Qc -> option (Qc * M)) (g : gmv Qc) (X : list (list Qc)) (o : lop) (r : lres M) : Prop :=
  match o with
  | LSet _ _ => r = LDone
  | LGet v => r = LNumbers (nth v X [])
  | LVar v => r = LValue (qsum (fun fc => inner (nth v X []) (snd fc)) (filter (unary_of v) (v_factors g)))
  | LFactor f => forall fc, nth_error (v_factors g) f = Some fc -> r = match contribution solve X fc with Some q => LValue q | None => LThrown end
  | LTotal => r = match sum_all (map (contribution solve X) (v_factors g)) with Some q => LValue q | None => LThrown end
  | LMatrix _ => True
  end.
