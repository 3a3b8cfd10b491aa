(** Specification for the solver of the sub-models of TRWS. *)
From Coq Require Import QArith Qcanon.
From Verif Require Import Base Values GmView GmViewSpec ConstraintModel DualDecompProofs.
Open Scope nat_scope.

(** own v l is the value that the factors of the variable v alone give to its label l. *)
Definition owns (g : gmv Qc) (own : nat -> nat -> Qc) : Prop := forall v fc l, In fc (v_factors g) -> fst fc = [v] -> snd fc [l] = own v l.
(** A sequence of variables with factors of their own, and of factors between neighbours *)
Definition has_own (g : gmv Qc) (v : nat) : Prop := v < length (v_labels g) /\ exists t, In ([v], t) (v_factors g).
Definition joins (g : gmv Qc) (f a b : nat) : Prop := exists fc, nth_error (v_factors g) f = Some fc /\ (fst fc = [a; b] \/ fst fc = [b; a]).
Definition chain (g : gmv Qc) (vars pws : list nat) : Prop :=
  length vars = S (length pws) /\ forall i, i < length pws -> joins g (nth i pws 0) (nth i vars 0) (nth (S i) vars 0).
(** The value of a factor of two variables, one of which is a, when a has the label p and the other one q *)
Definition pair_value (g : gmv Qc) (f a p q : nat) : Qc :=
  match nth_error (v_factors g) f with Some (vis, t) => t (map (fun v => if v =? a then p else q) vis) | None => 0%Qc end.
(** One label for every variable of the sequence *)
Definition chain_labeling (g : gmv Qc) (vars y : list nat) : Prop := length y = length vars /\ forall i, i < length vars -> nth i y 0 < nth (nth i vars 0) (v_labels g) 0.
(** The energy of a sequence; a variable that is in several of them has its own values divided by their number. *)
Definition chain_energy (g : gmv Qc) (own : nat -> nat -> Qc) (vars pws nums y : list nat) : Qc :=
  (qsum (fun i => own (nth i vars 0%nat) (nth i y 0%nat) / Qc_of (nth i nums 0%nat)) (seq 0 (length vars))
   + qsum (fun i => pair_value g (nth i pws 0%nat) (nth i vars 0%nat) (nth i y 0%nat) (nth (S i) y 0%nat)) (seq 0 (length pws)))%Qc.
(** The smallest energy of the labelings with a property *)
Definition least_energy (g : gmv Qc) (own : nat -> nat -> Qc) (vars pws nums : list nat) (A : list nat -> Prop) (e : Qc) : Prop :=
  (exists y, chain_labeling g vars y /\ A y /\ chain_energy g own vars pws nums y = e) /\
  forall y, chain_labeling g vars y -> A y -> (e <= chain_energy g own vars pws nums y)%Qc.
