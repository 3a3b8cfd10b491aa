(** Model of inference/infandflip.hxx (InfAndFlip), with the LazyFlipper of LazyFlipperModel.v.
    The inference INF is a function [inner] from its starting point (None: setStartingPoint is not called) to its labeling and bound.
    Of the visitor only the result of its call after the inference is modelled: whether it asks to stop.  The output is not modelled.
    [fuel] bounds the loops of the LazyFlipper; running out of it is Diverge. *)
From Verif Require Import Base Values GmView LazyFlipperModel.

Section Iaf.
Variable T : Type.
Variable OP : oper T.
Variable mult : bool.
Variable recompute : T -> bool.
Variable ACC : accum T.
Variable g : gmv T.
Variable inner : option (list nat) -> outcome (list nat * T).
(** Parameter, 52-71: maxSubgraphSize_ and warmStartableInf_ *)
Variable maxSubgraphSize : nat.
Variable warmStartable : bool.
Let numVar := length (v_labels g).

(** 91-96: state_, value_, bound_, and spValue_ (uninitialised: None) with sp_ *)
Record iaf : Type := mkIaf { if_state : list nat; if_val : T; if_bnd : T; if_spval : option T; if_sp : list nat }.
(** 103-116, the constructor *)
Definition if_new : outcome iaf := if numVar =? 0 then Throw else Ret (mkIaf [] (a_neutral ACC) (a_ineutral ACC) None []).
(** 83-87, setStartingPoint: [x] is what the iterator gives *)
Definition if_setStart (s : iaf) (x : list nat) : outcome iaf :=
  if length x <? numVar then Undef
  else
    let sp := firstn numVar x in
    v <- v_evaluate T OP g sp ;; Ret (mkIaf (if_state s) (if_val s) (if_bnd s) (Some v) sp).
(** 140-182, infer *)
Definition if_infer (fuel : nat) (s : iaf) (stop : bool) : outcome iaf :=
  lf <- lf_new T OP g 2 [] None ;;
  ' (x, b) <- inner (if warmStartable && negb (length (if_sp s) =? 0) then Some (if_sp s) else None) ;;
  v <- v_evaluate T OP g x ;;
  let s := mkIaf x v b (if_spval s) (if_sp s) in
  if stop then Ret s
  else if 0 <? maxSubgraphSize then
    lf <- lf_setMax T lf maxSubgraphSize ;;
    lf <- (if negb (length (if_sp s) =? numVar) then lf_setStart T OP g lf (if_state s)
           else match if_spval s with
                | None => Undef
                | Some spValue => if a_bop ACC (if_val s) spValue then lf_setStart T OP g lf (if_state s) else lf_setStart T OP g lf (if_sp s)
                end) ;;
    lf <- lf_infer T OP mult recompute ACC g (fun _ => false) fuel lf ;;
    x <- lf_arg T g lf ;;
    v <- v_evaluate T OP g x ;;
    Ret (mkIaf x v (if_bnd s) (if_spval s) (if_sp s))
  else Ret s.
(** 194-211, arg (for n = 1); 213-224, value and bound *)
Definition if_arg (s : iaf) : outcome (list nat) := mapM (rd (if_state s)) (seq 0 numVar).
Definition if_value (s : iaf) : T := if_val s.
Definition if_bound (s : iaf) : T := if_bnd s.
End Iaf.
Arguments mkIaf {T}. Arguments if_state {T}. Arguments if_val {T}. Arguments if_bnd {T}. Arguments if_spval {T}. Arguments if_sp {T}. Arguments if_value {T}. Arguments if_bound {T}.

(** A client's calls on one object. *)
Inductive ifop : Type := IfSetStart (x : list nat) | IfInfer (stop : bool).
Definition ifstep {T : Type} (OP : oper T) (mult : bool) (recompute : T -> bool) (ACC : accum T) (g : gmv T) (inner : option (list nat) -> outcome (list nat * T)) (max : nat) (warm : bool) (fuel : nat)
  (s : iaf T) (o : ifop) : outcome (iaf T) :=
  match o with IfSetStart x => if_setStart T OP g s x | IfInfer stop => if_infer T OP mult recompute ACC g inner max warm fuel s stop end.
Definition ifrun {T : Type} (OP : oper T) (mult : bool) (recompute : T -> bool) (ACC : accum T) (g : gmv T) (inner : option (list nat) -> outcome (list nat * T)) (max : nat) (warm : bool) (fuel : nat)
  (ops : list ifop) : outcome (iaf T) := s <- if_new T ACC g ;; foldM (ifstep OP mult recompute ACC g inner max warm fuel) ops s.
