(** Specification for C20: fixing variables of a graphical model. *)
From Verif Require Import Base Values GmView GmViewSpec ShapeSpec MovemakerSpec SubmodelModel ManipulatorModel.
From Coq Require Import Relation_Operators.

(** Which variables are fixed, and to which labels. *)
Notation fixes := (list (option nat)).
Definition is_free (fx : fixes) (v : nat) : bool := match nth v fx None with None => true | Some _ => false end.
Definition free_vars (fx : fixes) : list nat := filter (is_free fx) (seq 0 (length fx)).
(** The labeling [z] has the fixed labels. *)
Definition extends (fx : fixes) (z : list nat) : Prop := Forall2 (fun o l => match o with Some k => l = k | None => True end) fx z.

(** What a user thinks the state is: locked?; the fixed labels; has lock been called; is there a modified model; are
    there sub-models. *)
Record sstate : Type := mkSS { ss_locked : bool; ss_fix : fixes; ss_ready : bool; ss_model : bool; ss_subs : bool }.
Definition s_new (n : nat) : sstate := mkSS false (repeat None n) false false false.
Definition sstep (s : sstate) (o : manop) : sstate :=
  match o with
  | OFix v l => if ss_locked s then s else mkSS false (upd (ss_fix s) v (Some l)) (ss_ready s) (ss_model s) (ss_subs s)
  | OFree v => if ss_locked s then s else mkSS false (upd (ss_fix s) v None) (ss_ready s) (ss_model s) (ss_subs s)
  | OFreeAll => if ss_locked s then s else mkSS false (map (fun _ => None) (ss_fix s)) (ss_ready s) (ss_model s) (ss_subs s)
  | OLock => mkSS true (ss_fix s) true (ss_model s) (ss_subs s)
  | OUnlock => mkSS false (map (fun _ => None) (ss_fix s)) (ss_ready s) false false
  | OBuild => mkSS true (ss_fix s) (ss_ready s) true (ss_subs s)
  | OBuildSub => mkSS true (ss_fix s) (ss_ready s) (ss_model s) true
  | OEval _ | OEvalSub _ _ => s
  end.

Section Spec.
Context {T : Type}.
Variable g : gmv T.

(** Legal calls: variables and labels exist; lock() was called before a model is built; labels handed to a built model
    fit its shape. *)
Definition man_legal (s : sstate) (m : man T) (o : manop) : Prop :=
  match o with
  | OFix v l => v < length (v_labels g) /\ l < nth v (v_labels g) 0
  | OFree v => v < length (v_labels g)
  | OBuild | OBuildSub => ss_ready s = true
  | OEval y => ss_model s = true /\ in_shape (s_labels (a_mgm m)) y
  | OEvalSub i y => ss_subs s = true /\ exists sub, nth_error (a_subs m) i = Some sub /\ in_shape (s_labels sub) y
  | _ => True
  end.
Fixpoint man_legal_run (OP : oper T) (md : mode) (s : sstate) (m : man T) (ops : list manop) : Prop :=
  match ops with
  | [] => True
  | o :: r => man_legal s m o /\ forall m', mstep T OP g md m o = Ret m' -> man_legal_run OP md (sstep s o) m' r
  end.

(** The factors that do not involve a fixed variable. *)
Definition kept (fx : fixes) : gmv T := mkGmv (v_labels g) (filter (fun fc => forallb (is_free fx) (fst fc)) (v_factors g)).
(** The function the modified model stands for: mode FIX keeps all factors, mode DROP only those without fixed
    variables. *)
Definition target (md : mode) (fx : fixes) : gmv T := match md with FIX => g | DROP => kept fx end.

(** Free variables joined by factors, through free variables. *)
Definition beside (u v : nat) : Prop := exists fc, In fc (v_factors g) /\ In u (fst fc) /\ In v (fst fc).
Definition joined (fx : fixes) : nat -> nat -> Prop := clos_refl_trans_1n nat (fun u v => beside u v /\ v < length fx /\ is_free fx v = true).
End Spec.
