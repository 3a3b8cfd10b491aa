(** Specification for tentacle elimination: histories of calls. *)
From Verif Require Import Base Values GmView GmViewSpec ShapeSpec MovemakerSpec SubmodelModel ManipulatorModel ManipulatorSpec TentacleModel.

(** The state as a user sees it, and whether tentacles have been eliminated. *)
Record tstate : Type := mkTS { ts_base : sstate; ts_elim : bool }.
Definition ts_new (n : nat) : tstate := mkTS (s_new n) false.
Definition tsstep (s : tstate) (o : tentop) : tstate :=
  match o with
  | TOp o => mkTS (sstep (ts_base s) o) (ts_elim s)
  | TElim => if ss_locked (ts_base s) then s
             else mkTS (mkSS true (ss_fix (ts_base s)) true (ss_model (ts_base s)) (ss_subs (ts_base s))) true
  end.

Section Spec.
Context {T : Type}.
Variable g : gmv T.

(** Legal calls: as for a manipulator without tentacles; tentacles are eliminated only if the index of every variable
    that is not fixed is less than the number of factors; unlock() is not called after that. *)
Definition tent_legal (s : tstate) (t : tman T) (o : tentop) : Prop :=
  match o with
  | TOp OUnlock => ts_elim s = false
  | TOp o => man_legal g (ts_base s) (tm_man t) o
  | TElim => ss_locked (ts_base s) = true \/ forall v, In v (free_vars (ss_fix (ts_base s))) -> v < length (v_factors g)
  end.
Variable OP : oper T.
Variable solve_rooted : gmv T -> nat -> outcome (list T * list (list nat)).
Variable solve_free : gmv T -> outcome (list nat).
Fixpoint tent_legal_run (s : tstate) (t : tman T) (ops : list tentop) : Prop :=
  match ops with
  | [] => True
  | o :: r => tent_legal s t o /\ forall t', tstep T OP g FIX solve_rooted solve_free t o = Ret t' -> tent_legal_run (tsstep s o) t' r
  end.
End Spec.
