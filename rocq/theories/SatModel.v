(** Model of inference/sat.hxx (SAT): the 2-SAT solver.
    Simplified: the graphical model is given by its view (GmView.v) over bool, the operation is And; index types are unbounded (the
    vertices are ints in the code); a boost graph is its number of vertices and its list of edges; boost::strong_components is a
    parameter; visitors are not called; OPENGM_ASSERT (72-78) is not modelled. *)
From Verif Require Import Base Values GmView OperationsModel.

(** and.hxx 10-51 as the operation of a model of bool values; there is no inverse *)
Definition AndB : oper bool := {| o_neutral := And_neutral; o_op := And_op2; o_iop := fun a b => b |}.

Section Sat.
Variable gm : gmv bool.
(** strong_components(g, component map): the component of each vertex *)
Variable scc : nat -> list (nat * nat) -> list nat.

(** gm_[f](vec.begin()): outside of the factor's shape the function reads beyond its end *)
Definition sat_at (fc : list nat * (list nat -> bool)) (c : list nat) : outcome bool :=
  sh <- mapM (rd (v_labels gm)) (fst fc) ;;
  if forallb (fun p => fst p <? snd p) (combine c sh) then Ret (snd fc c) else Undef.

(** 126-133, one assignment of one factor *)
Definition sat_clause (fc : list nat * (list nat -> bool)) (es : list (nat * nat)) (vec : nat * nat) : outcome (list (nat * nat)) :=
  b <- sat_at fc [fst vec; snd vec] ;;
  if negb b then
    i0 <- rd (fst fc) 0 ;; i1 <- rd (fst fc) 1 ;;
    let n := v_numberOfVariables _ gm in
    let v1 := i0 + (1 - fst vec) * n in let nv1 := i0 + (0 + fst vec) * n in
    let v2 := i1 + (1 - snd vec) * n in let nv2 := i1 + (0 + snd vec) * n in
    Ret (es ++ [(nv1, v2); (nv2, v1)])
  else Ret es.
(** 119-136, one factor *)
Definition sat_factor (es : list (nat * nat)) (fc : list nat * (list nat -> bool)) : outcome (list (nat * nat)) :=
  if negb (length (fst fc) =? 2) then Throw
  else foldM (fun es a => foldM (fun es b => sat_clause fc es (a, b)) (seq 0 2) es) (seq 0 2) es.
(** 118-136, the implication graph *)
Definition sat_graph : outcome (list (nat * nat)) := foldM sat_factor (v_factors gm) [].
(** 107-141, infer(VISITOR &): the new component_; if it throws, component_ stays as it is *)
Definition sat_infer (component : list nat) : outcome (list nat) :=
  es <- sat_graph ;; Ret (scc (v_numberOfVariables _ gm * 2) es).
(** 143-154, value() *)
Definition sat_value (component : list nat) : outcome bool :=
  foldM (fun satisfied i => a <- rd component i ;; b <- rd component (i + v_numberOfVariables _ gm) ;;
           Ret (if a =? b then false else satisfied)) (seq 0 (v_numberOfVariables _ gm)) true.
(** 64-70, the constructor: component_ is empty *)
Definition sat_new : list nat := [].
(** 80-84, reset() does nothing *)
Definition sat_reset (component : list nat) : list nat := component.
End Sat.
