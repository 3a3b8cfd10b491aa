(** Vocabulary for dynamic programming: forests and root choices. *)
From Verif Require Import Base Values GmView GmViewSpec.
From Coq Require Import Relations.Relation_Operators.

Section Spec.
Context {T : Type}.
Variable g : gmv T.

(** Factor [k] has exactly the two variables [u] and [v]. *)
Definition edge (k u v : nat) : Prop := exists fc, nth_error (v_factors g) k = Some fc /\ (fst fc = [u; v] \/ fst fc = [v; u]).

(** Connected by factors of order two. *)
Definition linked (u v : nat) : Prop := clos_refl_trans nat (fun a b => exists k, edge k a b) u v.

(** A forest: without a factor, the two variables it joins are not connected. *)
Definition forest : Prop := forall k u v, edge k u v ->
  ~ clos_refl_trans nat (fun a b => exists j, j <> k /\ edge j a b) u v.

(** No factor has more than two variables. *)
Definition second_order : Prop := Forall (fun fc => length (fst fc) <= 2) (v_factors g).

(** Requested roots: variables of different trees; and each of the first variables, as many as there are
    requested roots, is in the tree of a requested root.  (No roots, or one root in each tree, are such choices.) *)
Definition roots_ok (roots : list nat) : Prop :=
  Forall (fun r => r < length (v_labels g)) roots /\ ForallOrdPairs (fun a b => ~ linked a b) roots /\
  forall v, v < length roots -> exists r, In r roots /\ linked r v.
End Spec.
