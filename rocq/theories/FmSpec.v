(** Specification for the fusion movers; with GmViewSpec.v and FuseSpec.v (fused). *)
From Coq Require Import QArith Qcanon.
From Verif Require Import Base Values GmView GmViewSpec AlphaBetaSwapSpec FuseSpec FmModel.
Open Scope nat_scope.

(** The solver of the binary models: for models whose factors have at most d variables it returns a labeling. *)
Definition binary_model {T : Type} (d : nat) (sub : gmv T) : Prop := wf_gmv sub /\ same_labels 2 sub /\ order_at_most d sub.
Definition start_ok {T : Type} (sub : gmv T) (start : option (list nat)) : Prop := match start with Some x => labeling sub x | None => True end.
Definition returns_labelings {T : Type} (d : nat) (solver : bsolver T) : Prop :=
  forall sub start, binary_model d sub -> start_ok sub start -> exists l, solver sub start = Ret (Some l) /\ labeling sub l.
(** An exact solver. *)
Definition exact_solver {T : Type} (fin : T -> Prop) (OP : oper T) (ACC : accum T) (d : nat) (solver : bsolver T) : Prop :=
  forall sub start l, binary_model d sub -> fin_gmv fin sub -> start_ok sub start -> solver sub start = Ret (Some l) -> optimal OP ACC sub l.
(** The value of the terms given to QPBO. *)
Definition qp_value {T : Type} (OP : oper T) (terms : list (qpterm T)) (b : nat -> bool) : T :=
  fold_left (fun acc t => o_op OP (match t with
    | PUnary v e0 e1 => if b v then e1 else e0
    | PPair v w e00 e01 e10 e11 => if b v then if b w then e11 else e10 else if b w then e01 else e00 end) acc) terms (o_neutral OP).
(** Not worse. *)
Definition as_good {T : Type} (OP : oper T) (ACC : accum T) (g : gmv T) (x y : list nat) : Prop := a_bop ACC (total OP g y) (total OP g x) = false.
(** The best labeling that takes each label from x or y. *)
Definition best_fusion {T : Type} (OP : oper T) (ACC : accum T) (g : gmv T) (x y z : list nat) : Prop := fused x y z /\ forall z', fused x y z' -> as_good OP ACC g z z'.

(** The variables with different labels, and the labeling that labels 0 and 1 of these variables stand for. *)
Definition differing (x y : list nat) : list nat := filter (fun v => negb (nth v x 0 =? nth v y 0)) (seq 0 (length x)).
Definition chosen (x y l z : list nat) : Prop :=
  length z = length x /\ (forall v, nth v x 0 = nth v y 0 -> nth v z 0 = nth v x 0) /\
  forall i, i < length (differing x y) -> let v := nth i (differing x y) 0 in nth v z 0 = if nth i l 0 =? 0 then nth v x 0 else nth v y 0.
(** A QPBO solver that labels all nodes and whose labels are optimal. *)
Definition qp_nodes {T : Type} (n : nat) (terms : list (qpterm T)) : Prop := Forall (fun t => match t with PUnary v _ _ => v < n | PPair v w _ _ _ _ => v < n /\ w < n end) terms.
Definition qp_exact {T : Type} (OP : oper T) (ACC : accum T) (solver : qpsolver T) : Prop :=
  forall n terms start, qp_nodes n terms -> exists b, (forall i, i < n -> solver n terms start i = Some (b i)) /\ forall b', a_bop ACC (qp_value OP terms b') (qp_value OP terms b) = false.
(** What a fusion move returns: the value of the new labeling, which is a fusion of the two and not worse than them. *)
Definition good_fusion {T : Type} (OP : oper T) (ACC : accum T) (g : gmv T) (x y : list nat) (r : T * list nat) : Prop :=
  fst r = total OP g (snd r) /\ labeling g (snd r) /\ fused x y (snd r) /\ as_good OP ACC g (snd r) x /\ as_good OP ACC g (snd r) y.
