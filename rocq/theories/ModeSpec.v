(** Vocabulary for statements about labelings made from marginals. *)
From Verif Require Import Base Values GmView GmViewSpec.

(** The values close to [v] lie between the values that are better and the values that are worse than those:
    holds for |a - b| < tolerance on numbers. *)
Record close_laws {T : Type} (fin : T -> Prop) (ACC : accum T) (close : T -> T -> bool) : Prop := {
  cl_beats : forall a b v, fin a -> fin b -> fin v -> close a v = false -> a_bop ACC a v = true -> close b v = true -> a_bop ACC a b = true;
  cl_worse : forall a v, fin a -> fin v -> close a v = false -> a_bop ACC a v = false -> a_bop ACC v a = true }.

(** A labeling with the given labels that no labeling with these labels beats. *)
Definition optimal_given {T : Type} (OP : oper T) (ACC : accum T) (g : gmv T) (given : list (nat * nat)) (x : list nat) : Prop :=
  labeling g x /\ Forall (fun vl => nth_error x (fst vl) = Some (snd vl)) given /\
  forall y, labeling g y -> Forall (fun vl => nth_error y (fst vl) = Some (snd vl)) given -> a_bop ACC (total OP g y) (total OP g x) = false.
