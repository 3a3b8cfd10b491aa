(** Vocabulary for statements about graph cuts: cuts and their costs, energies, submodularity. *)
From Verif Require Import Base Values GmView GmViewSpec ShapeSpec GraphCutModel.
Local Open Scope Z_scope.

(** On which side a node lies: node 0 is the source ([false]), node 1 the sink ([true]). *)
Definition side (sigma : list bool) (v : nat) : bool :=
  match v with 0%nat => false | 1%nat => true | _ => nth v sigma false end.
(** The cost of a cut: all edges from the source side to the sink side. *)
Fixpoint cut_cost (sigma : list bool) (edges : list edge) : Z :=
  match edges with
  | [] => 0
  | (u, v, c) :: edges => (if negb (side sigma u) && side sigma v then c else 0) + cut_cost sigma edges
  end.
Definition legal_edges (nodes : nat) (edges : list edge) : Prop :=
  Forall (fun e : edge => let '(u, v, c) := e in (u < nodes)%nat /\ (v < nodes)%nat /\ 0 <= c) edges.
(** What is assumed of the max-flow library: for non-negative capacities it returns a minimum cut. *)
Definition min_cut_solver (cut : nat -> list edge -> list bool) : Prop :=
  forall nodes edges, (2 <= nodes)%nat -> legal_edges nodes edges ->
    length (cut nodes edges) = nodes /\ forall tau, length tau = nodes -> cut_cost (cut nodes edges) edges <= cut_cost tau edges.

(** Energies over the integers: the sum of all factors. *)
Definition energy (g : gmv Z) (x : list nat) : Z := total AdderZ g x.
(** Minimization or maximization. *)
Definition at_least_as_good (maxi : bool) (a b : Z) : Prop := if maxi then b <= a else a <= b.
Definition best_labeling (maxi : bool) (g : gmv Z) (x : list nat) : Prop :=
  labeling g x /\ forall y, labeling g y -> at_least_as_good maxi (energy g x) (energy g y).

(** By how much a factor of two binary variables fails to be submodular (supermodular for maximization). *)
Definition excess (maxi : bool) (fc : factor) : Z :=
  match fst fc with
  | [_; _] => let f := snd fc in
      let d := f [0; 0]%nat + f [1; 1]%nat - f [0; 1]%nat - f [1; 0]%nat in Z.max 0 (if maxi then - d else d)
  | _ => 0
  end.
Fixpoint total_excess (maxi : bool) (fs : list factor) : Z := match fs with [] => 0 | fc :: fs => excess maxi fc + total_excess maxi fs end.
Definition submodular (maxi : bool) (fs : list factor) : Prop := Forall (fun fc => excess maxi fc = 0) fs.

(** Factors over the first [n] variables, of at most two variables. *)
Definition small_factors (n : nat) (fs : list factor) : Prop :=
  Forall (fun fc : factor => (length (fst fc) <= 2)%nat /\ Forall (fun v => (v < n)%nat) (fst fc)) fs.
