(** Vocabulary for statements about Gibbs sampling. *)
From Verif Require Import Base Values GmView GmViewSpec GibbsModel.

Section Spec.
Context {T : Type}.
Variable g : gmv T.
Variable par : gpar.
(** A call with a labeling of the model *)
Definition glegal (o : gop T) : Prop := match o with GStart x => labeling g x | _ => True end.
(** No starting point in the parameter, or a labeling of the model *)
Definition gstart_ok : Prop := gp_start par = [] \/ labeling g (gp_start par).
(** Is there a starting point after some calls: the parameter has one, or setStartingPoint() was called and no reset() after it *)
Definition started (h : list (gop T)) : bool :=
  fold_left (fun b o => match o with GStart _ => true | GReset => negb (length (gp_start par) =? 0) | GInfer _ => b end) h (negb (length (gp_start par) =? 0)).
End Spec.
(** One labeling is among some labelings and none of them is better. *)
Definition best_among {T : Type} (OP : oper T) (ACC : accum T) (g : gmv T) (x : list nat) (l : list (list nat)) : Prop :=
  In x l /\ forall y, In y l -> a_bop ACC (total OP g y) (total OP g x) = false.
(** What a marginal has counted: the samples after burn-in whose labels of some variables are c *)
Fixpoint sampled (vis c : list nat) (h : list gvop) : nat :=
  match h with
  | [] => 0
  | VCall x _ false :: h => (if list_eq_dec Nat.eq_dec (at_vars x vis) c then 1 else 0) + sampled vis c h
  | _ :: h => sampled vis c h
  end.
(** The number of marginals that were added, of samples after burn-in and of the accepted ones *)
Definition added (h : list gvop) : nat := length (filter (fun o => match o with VAdd _ => true | _ => false end) h).
Definition samples (h : list gvop) : nat := length (filter (fun o => match o with VCall _ _ false => true | _ => false end) h).
Definition accepted_samples (h : list gvop) : nat := length (filter (fun o => match o with VCall _ true false => true | _ => false end) h).
(** The calls are made for a model with n variables. *)
Definition vlegal (n : nat) (o : gvop) : Prop := match o with VAdd vis => Forall (fun v => v < n) vis | VCall x _ _ => length x = n end.
