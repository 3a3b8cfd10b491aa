(** Vocabulary for statements about decompositions of graphical models. *)
From Coq Require Import Sorted.
From Verif Require Import Base DecompModel FactorGraphModel FactorGraphSpec.

(** Variable [k] of submodel [m] is a copy of variable [v] of the model. *)
Definition copy_of (d : dec) (v m k : nat) : Prop := In (m, k) (nth v (d_vl d) []).
(** A sequence of variables of submodel [m] consists of copies of the variables [vs]. *)
Definition copies_of (d : dec) (vs : list nat) (m : nat) (idx : list nat) : Prop := Forall2 (fun v k => copy_of d v m k) vs idx.

(** [d] is a decomposition of the model with [nv] variables and factors over [fs]: every variable of every submodel is a copy of
    exactly one variable of the model, every subfactor for a factor connects copies of the variables of this factor, and so does
    every subfactor without a factor. *)
Record decomposes (nv : nat) (fs : list (list nat)) (d : dec) : Prop := {
  dc_nv : d_nv d = nv /\ length (d_vl d) = nv;
  dc_nf : d_nf d = length fs /\ length (d_fl d) = length fs;
  dc_nm : length (d_nsv d) = d_nm d /\ length (d_nsf d) = d_nm d;
  dc_range : forall v m k, copy_of d v m k -> v < nv /\ m < d_nm d /\ k < nth m (d_nsv d) 0;
  dc_exact : forall m k, m < d_nm d -> k < nth m (d_nsv d) 0 -> exists! v, copy_of d v m k;
  dc_once : forall v, NoDup (nth v (d_vl d) []);
  dc_factor : forall f s, In s (nth f (d_fl d) []) -> s_model s < d_nm d /\ copies_of d (nth f fs []) (s_model s) (s_idx s);
  dc_empty : forall key l s, In (key, l) (d_el d) -> In s l -> s_model s < d_nm d /\ copies_of d key (s_model s) (s_idx s) }.

(** Every variable and every factor of the model occurs in some submodel. *)
Definition covers (nv : nat) (fs : list (list nat)) (d : dec) : Prop :=
  (forall v, v < nv -> nth v (d_vl d) [] <> []) /\ (forall f, f < length fs -> nth f (d_fl d) [] <> []).

(** The variables of every submodel are numbered in the order of the variables of the model. *)
Definition ordered (d : dec) : Prop :=
  forall u v m k l, copy_of d u m k -> copy_of d v m l -> u < v -> k < l.

(** The submodels in which a factor occurs. *)
Definition occurs_in (d : dec) (f : nat) : list nat := map s_model (nth f (d_fl d) []).
(** No submodel has two copies of a variable. *)
Definition single (d : dec) : Prop := forall v m k l, copy_of d v m k -> copy_of d v m l -> k = l.

(** Every variable with several copies has a common set of unary subfactors that reaches every copy: those of a factor over this
    variable alone, or subfactors without a factor. *)
Definition completed (fs : list (list nat)) (d : dec) : Prop :=
  forall v, 1 < length (nth v (d_vl d) []) ->
    exists l, ((exists f, f < length fs /\ nth f fs [] = [v] /\ l = nth f (d_fl d) []) \/ In ([v], l) (d_el d)) /\
      forall m k, copy_of d v m k -> exists s, In s l /\ s_model s = m /\ s_idx s = [k].

(** The variables of the subfactors of submodel [m], as a factor graph. *)
Definition sub_factors (d : dec) (m : nat) : list (list nat) :=
  map s_idx (filter (fun s => s_model s =? m) (concat (d_fl d) ++ concat (map snd (d_el d)))).
Definition sub_graph (d : dec) (m : nat) : fgraph :=
  mkFgraph (sub_factors d m) (map (fun k => filter (fun f => existsb (Nat.eqb k) (nth f (sub_factors d m) [])) (seq 0 (length (sub_factors d m))))
                         (seq 0 (nth m (d_nsv d) 0))).
Definition acyclic (g : fgraph) : Prop := forall c, ~ cycle (edge g) c.

(** Two decompositions that differ only in the numbering of the variables of the submodels. *)
Definition renames (ren : nat -> nat -> nat) (d d' : dec) : Prop :=
  d_nv d' = d_nv d /\ d_nf d' = d_nf d /\ d_nm d' = d_nm d /\ d_nsf d' = d_nsf d /\ d_nsv d' = d_nsv d /\
  (forall m k l, m < d_nm d -> k < nth m (d_nsv d) 0 -> l < nth m (d_nsv d) 0 -> ren m k = ren m l -> k = l) /\
  d_vl d' = map (map (fun p => (fst p, ren (fst p) (snd p)))) (d_vl d) /\
  d_fl d' = map (map (fun s => mkSub (s_model s) (s_id s) (map (ren (s_model s)) (s_idx s)))) (d_fl d) /\
  d_el d' = map (fun e => (fst e, map (fun s => mkSub (s_model s) (s_id s) (map (ren (s_model s)) (s_idx s))) (snd e))) (d_el d).
