(** Model of inference/self_fusion.hxx (SelfFusion and FusionVisitor), with the fusion mover of FmModel.v.
    The inference that is fused is given by what it shows the visitor: for each call of the visitor its labeling, value and bound; it is
    assumed to end when the visitor does not return ContinueInf.  The user's visitor is a function [stop] of the number of its call.
    Simplified: every fusion starts with cleared index vectors in the mover (C57 holds for any contents); the logs are not modelled; the
    solvers are those of HlFusionMover (149-209 choose among them in the same way; WITH_QPBO and WITH_CPLEX are assumed). *)
From Verif Require Import Base Values GmView FmModel.

Section Sf.
Variable T : Type.
(** operator== on values *)
Variable eqv : T -> T -> bool.
Variable OP : oper T.
Variable ACC : accum T.
Variable g : gmv T.
Variable solvers : hlsolvers T.
Variable kind : fusionSolver.
(** Parameter, 304-314 *)
Record sfparam : Type := mkSfParam { sp_fuseNth : nat; sp_numStopIt : nat }.
Variable p : sfparam.
Variable stop : nat -> bool.
Let numVar := length (v_labels g).

(** argBest_, value_ and bound_ of SelfFusion (391-396); argOut_, iteration_, numNoProgress_, whether returnFlag_ is other than
    ContinueInf (240-263), and the number of calls of the user's visitor *)
Record sf : Type := mkSf { sf_best : list nat; sf_val : T; sf_bnd : T; sf_out : list nat; sf_iter : nat; sf_noProgress : nat; sf_flag : bool; sf_calls : nat }.

(** 107-237, fuseVisit, up to its result: one call by the inference, which shows [x] with its value and bound *)
Definition sf_visit (s : sf) (shown : list nat * T * T) : outcome sf :=
  let '(x, value, bound) := shown in
  s' <- (if sf_iter s =? 0 then
           (* 113-122 *)
           let best := x in
           best <- (if a_bop ACC value (sf_val s) then copy_into (sf_out s) best else Ret best) ;;
           Ret (mkSf best (if a_bop ACC value (sf_val s) then value else sf_val s) (sf_bnd s) (sf_out s) (sf_iter s) (sf_noProgress s) (stop (sf_calls s)) (S (sf_calls s)))
         else if sp_fuseNth p =? 0 then Undef
         else if sf_iter s mod sp_fuseNth p =? 0 then
           (* 123-224 *)
           ' (r, out) <- hl_fuse T OP ACC g solvers kind (fm_vectors0 T g) (sf_best s) x (sf_out s) (sf_val s) value ;;
           match r with
           | Some v => best <- copy_into out (sf_best s) ;; Ret (mkSf best v bound out (sf_iter s) (sf_noProgress s) (stop (sf_calls s)) (S (sf_calls s)))
           | None => Ret (mkSf (sf_best s) (sf_val s) bound out (sf_iter s) (sf_noProgress s) (stop (sf_calls s)) (S (sf_calls s)))
           end
         else Ret s) ;;
  (* 225-231 *)
  Ret (mkSf (sf_best s') (sf_val s') (sf_bnd s') (sf_out s') (S (sf_iter s')) (if eqv (sf_val s) (sf_val s') then S (sf_noProgress s') else 0) (sf_flag s') (sf_calls s')).
(** 233-236: the inference goes on *)
Definition sf_goes_on (s : sf) : bool := negb (sp_numStopIt p <=? sf_noProgress s) && negb (sf_flag s).
(** The calls the inference makes; also how many *)
Fixpoint sf_visits (s : sf) (shows : list (list nat * T * T)) (k : nat) : outcome (sf * nat) :=
  match shows with
  | [] => Ret (s, k)
  | sh :: shows => s <- sf_visit s sh ;; if sf_goes_on s then sf_visits s shows (S k) else Ret (s, S k)
  end.
(** 404-417, the constructor, and 454-473, infer(VisitorType &): 85-90 calls the user's visitor once *)
Definition sf_new : list nat := repeat 0 numVar.
Definition sf_infer (argBest : list nat) (shows : list (list nat * T * T)) : outcome (sf * nat) :=
  sf_visits (mkSf argBest (a_neutral ACC) (a_ineutral ACC) (repeat 0 numVar) 0 0 (stop 0) 1) shows 0.
(** 475-488, arg; 374-380, value and bound *)
Definition sf_arg (s : sf) : outcome (list nat) := mapM (rd (sf_best s)) (seq 0 numVar).
Definition sf_value (s : sf) : T := sf_val s.
Definition sf_bound (s : sf) : T := sf_bnd s.
End Sf.
Arguments mkSf {T}. Arguments sf_best {T}. Arguments sf_val {T}. Arguments sf_bnd {T}. Arguments sf_out {T}. Arguments sf_iter {T}. Arguments sf_noProgress {T}. Arguments sf_flag {T}. Arguments sf_calls {T}. Arguments sf_value {T}. Arguments sf_bound {T}.
