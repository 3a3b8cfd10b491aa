(** Specification for HigherOrderEnergy: polynomials in 0/1 variables and quadratic energies. *)
From Coq Require Import QArith Qcanon Sorting.Sorted.
From Verif Require Import Base HoeModel.
Open Scope nat_scope.

Fixpoint qsum (l : list Qc) : Qc := match l with [] => 0%Qc | a :: l => (a + qsum l)%Qc end.
(** The monomial c * x_v1 * ... * x_vd. *)
Definition mono (c : Qc) (vs : list nat) (x : nat -> bool) : Qc := if forallb x vs then c else 0%Qc.

(** The polynomial that a history of calls describes, the number of its variables and its constant. *)
Definition call_value (x : nat -> bool) (a : hoecall) : Qc :=
  match a with CTerm c vs => mono c vs x | CUnary v c => mono c [v] x | _ => 0%Qc end.
Definition poly (cs : list hoecall) (x : nat -> bool) : Qc := qsum (map (call_value x) cs).
Definition poly_vars (cs : list hoecall) : nat := fold_right (fun a n => match a with CVars m => m + n | _ => n end) 0 cs.
Definition poly_const (cs : list hoecall) : Qc := qsum (map (fun a => match a with CTerm c [] => c | _ => 0%Qc end) cs).

(** The variables of a monomial are increasing, have been added before, and are at most D; Clear is not called. *)
Fixpoint calls_ok (D n : nat) (cs : list hoecall) : Prop :=
  match cs with
  | [] => True
  | CVars m :: cs => calls_ok D (n + m) cs
  | CTerm _ vs :: cs => StronglySorted lt vs /\ Forall (fun v => v < n) vs /\ length vs <= D /\ calls_ok D n cs
  | CUnary v _ :: cs => v < n /\ calls_ok D n cs
  | CClear :: _ => False
  end.

(** The energy of the quadratic solver. *)
Definition un_value (x : nat -> bool) (u : nat * (Qc * Qc)) : Qc := let '(v, (e0, e1)) := u in if x v then e1 else e0.
Definition pw_value (x : nat -> bool) (p : nat * nat * (Qc * Qc * Qc * Qc)) : Qc :=
  let '(u, v, (e00, e01, e10, e11)) := p in
  match x u, x v with false, false => e00 | false, true => e01 | true, false => e10 | true, true => e11 end.
Definition q_value (q : quad) (x : nat -> bool) : Qc := (qsum (map (un_value x) (q_un q)) + qsum (map (pw_value x) (q_pw q)))%Qc.
(** Only the nodes of the solver have an influence. *)
Definition q_closed (q : quad) : Prop :=
  Forall (fun u => fst u < q_nodes q) (q_un q) /\ Forall (fun p => fst (fst p) < q_nodes q /\ snd (fst p) < q_nodes q) (q_pw q).

(** [e'] with the variables from n on is [e]: minimizing e' over the other variables gives e. *)
Definition min_over (n : nat) (e' e : (nat -> bool) -> Qc) : Prop :=
  (forall x, (e x <= e' x)%Qc) /\ (forall x, exists y, (forall v, v < n -> y v = x v) /\ e' y = e x).

(** x with the labels that a partial labeling knows. *)
Definition patch (ps : nat -> option bool) (x : nat -> bool) (v : nat) : bool := match ps v with Some b => b | None => x v end.
(** Using these labels never makes an assignment worse: persistency, as QPBO guarantees it. *)
Definition persistent (e : (nat -> bool) -> Qc) (ps : nat -> option bool) : Prop := forall x, (e (patch ps x) <= e x)%Qc.
Definition minimizer (e : (nat -> bool) -> Qc) (x : nat -> bool) : Prop := forall y, (e x <= e y)%Qc.
