(** ReducedInference: include/opengm/inference/reducedinference.hxx, with the manipulator of TentacleModel.v.

    Simplified: the inference algorithm INF that is run on a reduced model (subinf, 498-515) is a parameter that returns
    its labels and its bound; its value() is read (513) and never used, and left out.  Its labels replace the labels of
    the vector that is passed, as arg() of every algorithm does.  The methods that find labels of an
    optimal labeling are parameters of ri_infer; the choice of the method (216-251) and the one that is written in this
    file (266-345) are modelled.  A visitor is a function that says for each call whether to stop (visitor.begin and
    visitor.end have no result).  The member value_ (184) is never read and left out. *)
From Coq Require Import QArith Qcanon.
From Verif Require Import Base Values GmView HoeModel FuseModel HqpboModel SubmodelModel ManipulatorModel TentacleModel.
Open Scope nat_scope.

(** What a method finds: for each variable a label and whether an optimal labeling is known to have it, arg and opt; and
    the bound it stores, if it stores one (262, 344). *)
Record found (T : Type) : Type := mkFound { f_arg : list nat; f_opt : list bool; f_bound : option T }.
Arguments mkFound {T}. Arguments f_arg {T}. Arguments f_opt {T}. Arguments f_bound {T}.
(** The methods, lines 253-378. *)
Inductive rimethod : Type := ByQPBO | ByFixsHOQPBO | ByMQPBO | ByKovtun.
(** The flags of a Parameter, lines 125-128. *)
Record riparam : Type := mkRiparam { rp_persistency : bool; rp_tentacle : bool; rp_components : bool }.

Section Red.
Variable T : Type.
Variable OP : oper T.
Variable ACC : accum T.
Variable g : gmv T.
Variable solve_rooted : gmv T -> nat -> outcome (list T * list (list nat)).
Variable solve_free : gmv T -> outcome (list nat).
Let n := length (v_labels g).

(** *** Lines 216-251: the choice of the method *)
(** isPotts of a factor. *)
Variable isPotts : list nat * (list nat -> T) -> bool.
(** Lines 223-227. *)
Definition ri_binary : bool := fold_left (fun b k => if negb (k =? 2) then false else b) (v_labels g) true.
(** Lines 229-235. *)
Definition ri_factors : bool * nat :=
  fold_left (fun (p : bool * nat) fc =>
               let k := length (fst fc) in
               ((if fst p && (1 <? k) && ((3 <? k) || negb (isPotts fc)) then false else fst p), (if snd p <? k then k else snd p)))
            (v_factors g) (true, 0).
(** Lines 237-250. *)
Definition ri_select : outcome rimethod :=
  let '(potts, order) := ri_factors in
  if ri_binary then Ret (if order <=? 2 then ByQPBO else ByFixsHOQPBO)
  else if potts then Ret ByKovtun
  else if order <=? 2 then Ret ByMQPBO
  else Throw.
(** The constructor of MQPBO, mqpbo.hxx 140-151, which lines 356 and 371 call, throws if a factor has more than two variables. *)
Definition mqpbo_check : bool := forallb (fun fc : list nat * (list nat -> T) => length (fst fc) <=? 2) (v_factors g).
(** Lines 216-251 with a function for each of the methods. *)
Definition ri_partial (run : rimethod -> outcome (found T)) : outcome (found T) :=
  m <- ri_select ;;
  match m with
  | ByMQPBO | ByKovtun => if mqpbo_check then run m else Throw
  | _ => run m
  end.

(** *** The object *)
Variable par : riparam.
(** Line 414: arg and opt. *)
Variable partial : outcome (found T).
(** Lines 498-515. *)
Variable subinf : subgm T -> outcome (list nat * T).
(** The members state_ and bound_. *)
Record ri : Type := mkRi { ri_state : list nat; ri_bound : T }.
(** Lines 190-213. *)
Definition ri_new : ri := mkRi (repeat 0 n) (a_ineutral ACC).
Notation tstep := (tstep T OP g FIX solve_rooted solve_free).
(** Lines 415-420. *)
Definition ri_fix (f : found T) (t : tman T) : outcome (nat * tman T) :=
  foldM (fun (p : nat * tman T) i => o <- rd (f_opt f) i ;;
           if o : bool then a <- rd (f_arg f) i ;; t <- tstep (snd p) (TOp (OFix i a)) ;; Ret (S (fst p), t) else Ret p)
        (seq 0 n) (0, t).
(** Lines 525-528. *)
Definition ri_value (s : ri) : outcome T := v_evaluate T OP g (ri_state s).
(** Lines 466-479: the sub-models; None if the visitor stops.  [calls] counts the calls of the visitor. *)
Fixpoint ri_subs (stop : nat -> bool) (subs : list (subgm T)) (calls : nat) (args : list (list nat)) (sb : T) : outcome (option (list (list nat) * T)) :=
  match subs with
  | [] => Ret (Some (args, sb))
  | gm :: subs =>
      ' (a, b) <- subinf gm ;;
      if stop calls then Ret None else ri_subs stop subs (S calls) (args ++ [a]) (o_op OP b sb)
  end.
(** Lines 398-496; a visitor that stops at line 483 changes nothing. *)
Definition ri_infer (stop : nat -> bool) (s : ri) : outcome ri :=
  ' (k, t, bd) <- (if rp_persistency par
                   then f <- partial ;; ' (k, t) <- ri_fix f (tent_new T g) ;; Ret (k, t, match f_bound f with Some b => b | None => ri_bound s end)
                   else Ret (0, tent_new T g, ri_bound s)) ;;
  if k =? n then
    t <- tstep t (TOp OLock) ;;
    x <- tent_modifiedState2OriginalState T g t [] (ri_state s) ;;
    v <- ri_value (mkRi x bd) ;;
    Ret (mkRi x v)
  else
    t <- (if rp_tentacle par then tstep t TElim else tstep t (TOp OLock)) ;;
    if stop 0 then Ret (mkRi (ri_state s) bd)
    else if rp_components par then
      t <- tstep t (TOp OBuildSub) ;;
      r <- ri_subs stop (a_subs (tm_man t)) 1 [] (o_neutral OP) ;;
      match r with
      | None => Ret (mkRi (ri_state s) bd)
      | Some (args, sb) => x <- tent_modifiedSubStates2OriginalState T g t args (ri_state s) ;; Ret (mkRi x sb)
      end
    else
      t <- tstep t (TOp OBuild) ;;
      ' (a, b) <- subinf (a_mgm (tm_man t)) ;;
      x <- tent_modifiedState2OriginalState T g t a (ri_state s) ;;
      Ret (mkRi x b).
(** Lines 530-549, for N = 1. *)
Definition ri_arg (s : ri) : outcome (list nat) := mapM (rd (ri_state s)) (seq 0 n).
(** Calls of infer() on one object, with a visitor each. *)
Definition ri_run (stops : list (nat -> bool)) : outcome ri := foldM (fun s stop => ri_infer stop s) stops ri_new.
End Red.
Arguments mkRi {T}. Arguments ri_state {T}. Arguments ri_bound {T}.

(** Lines 266-345, getPartialOptimalityByFixsHOQPBO: the polynomial as in HQPBO; [lower] is ComputeTwiceLowerBound() / 2. *)
Definition ri_hoqpbo (g : gmv Qc) (solve : qsolver) (lower : quad -> Qc) : outcome (found Qc) :=
  let n := length (v_labels g) in
  constV <- foldM (fun c fc => if length (fst fc) =? 0 then e <- factor_at g fc [] ;; Ret (c + e)%Qc else Ret c) (v_factors g) (Q2Qc 0) ;;
  h <- setup_energy 10 (factor_at g) (fun _ => Ret 0) (fun _ => Ret 1) n (v_factors g) ;;
  ' (_, q) <- ToQuadratic 10 h quad_new ;;
  ' (arg, opt) <- foldM (fun (p : list nat * list bool) i =>
        let '(a, o) := match solve q i with Some false => (0, true) | Some true => (1, true) | None => (0, false) end in
        arg <- wr (fst p) i a ;; opt <- wr (snd p) i o ;; Ret (arg, opt)) (seq 0 n) (repeat 0 n, repeat false n) ;;
  Ret (mkFound arg opt (Some (constV + lower q)%Qc)).
