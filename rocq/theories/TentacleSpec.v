(** Specification for tentacle elimination. *)
From Verif Require Import Base Values GmView GmViewSpec MpSpec.

Section Spec.
Context {T : Type}.
Variables (fin : T -> Prop) (OP : oper T) (ACC : accum T).

(** A labeling that no other labeling with the same label of variable [r] beats. *)
Definition best_given (gm : gmv T) (r l : nat) (c : list nat) : Prop :=
  labeling gm c /\ nth r c 0 = l /\ forall y, labeling gm y -> nth r y 0 = l -> a_bop ACC (total OP gm y) (total OP gm c) = false.

(** No factor has more than [D] variables. *)
Definition order_at_most (D : nat) (gm : gmv T) : Prop := Forall (fun fc => length (fst fc) <= D) (v_factors gm).

(** The solvers for tentacles are exact on connected models without cycles whose factors have at most [D] variables: for
    a root, they find the best labeling for each label of the root and its value; without root an optimal labeling. *)
Definition rooted_exact (D : nat) (solve : gmv T -> nat -> outcome (list T * list (list nat))) : Prop :=
  forall gm r, wf_gmv gm -> fin_gmv fin gm -> order_at_most D gm -> acyclic gm -> connected gm -> r < length (v_labels gm) ->
  exists vals cands, solve gm r = Ret (vals, cands) /\ length vals = nth r (v_labels gm) 0 /\ length cands = nth r (v_labels gm) 0 /\
    forall l, l < nth r (v_labels gm) 0 -> best_given gm r l (nth l cands []) /\ nth_error vals l = Some (total OP gm (nth l cands [])).
Definition free_exact (D : nat) (solve : gmv T -> outcome (list nat)) : Prop :=
  forall gm, wf_gmv gm -> fin_gmv fin gm -> order_at_most D gm -> acyclic gm -> connected gm -> 0 < length (v_labels gm) ->
  exists arg, solve gm = Ret arg /\ optimal OP ACC gm arg.
End Spec.
