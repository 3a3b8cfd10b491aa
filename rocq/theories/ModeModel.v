(** Model of inference/inference.hxx: constrainedOptimum, modeFromMarginal and modeFromFactorMarginal, which make a
    labeling from marginals, and of MessagePassing::arg (inference/messagepassing/messagepassing.hxx).

    [marginal] and [factorMarginal] are the virtual functions of the same name; they return NORMAL.  Labels are
    numbers; [maxLabel] is std::numeric_limits<LabelType>::max(), the mark of a variable without label.
    OPENGM_ASSERT is not modelled: accesses are checked by the model itself. *)
From Verif Require Import Base Values GmView UtilModel FactorOpsModel MpModel.

Section Mode.
Variable T : Type.
Variable OP : oper T.
Variable ACC : accum T.
(** fabs(a - b) < 0.00001 *)
Variable close : T -> T -> bool.
(** 1.0, T() and 0.0 as values: the value of a default IndependentFactor (graphicalmodel_factor.hxx, 967-970), and
    those that the operations on factors use. *)
Variables vone v0 vzero : T.
Variable maxLabel : nat.
Variable g : gmv T.
Notation n := (nvars T g).
Variable marginal : nat -> outcome (ifactor T).
Variable factorMarginal : nat -> outcome (ifactor T).

(** [out(i)] for a factor of one variable, graphicalmodel_factor.hxx, operator()(index). *)
Definition out_at (out : ifactor T) (i : nat) : outcome T := t_readn T (if_fn out) i.

(** inference.hxx:341-353: the first best label. *)
Definition mode_label (v : nat) : outcome nat :=
  out <- marginal v ;;
  value <- out_at out 0 ;;
  labels <- rd (v_labels g) v ;;
  '(_, state) <- foldM (fun (st : T * nat) i =>
      x <- out_at out i ;;
      Ret (if a_bop ACC x (fst st) then (x, i) else st)) (seq 1 (labels - 1)) (value, 0) ;;
  Ret state.
(** inference.hxx:328-355. *)
Definition modeFromMarginal : outcome (list nat) := mapM mode_label (seq 0 n).

(** inference.hxx:367-389: the best label, and whether no other label comes close. *)
Definition unique_label (v : nat) : outcome (nat * bool) :=
  out <- marginal v ;;
  value <- out_at out 0 ;;
  labels <- rd (v_labels g) v ;;
  '(_, state, unique) <- foldM (fun (st : T * nat * bool) i =>
      let '(value, state, unique) := st in
      x <- out_at out i ;;
      Ret (if close x value then (value, state, false)
           else if a_bop ACC x value then (x, i, true)
           else st)) (seq 1 (labels - 1)) (value, 0, true) ;;
  Ret (state, unique).

(** inference.hxx:165-172: the first variable of the factor without label, or [var]. *)
Fixpoint find_unset (conf : list nat) (vs : list nat) (var : nat) : outcome nat :=
  match vs with
  | [] => Ret var
  | v :: vs => l <- rd conf v ;; if l =? maxLabel then Ret v else find_unset conf vs var
  end.

(** inference.hxx:180-197: the other variables with labels, their labels, and those without label. *)
Definition split_known (conf vs : list nat) (var2 : nat) : outcome (list nat * list nat * list nat) :=
  foldM (fun (st : list nat * list nat * list nat) v =>
    let '(kv, ks, uv) := st in
    if v =? var2 then Ret st
    else l <- rd conf v ;;
         Ret (if l <? maxLabel then (kv ++ [v], ks ++ [l], uv) else (kv, ks, uv ++ [v])))
    vs ([], [], []).

(** inference.hxx:178-202: the marginal of the factor, restricted to the known labels and accumulated over the unknown ones,
    is combined with t. *)
Definition combine_factor (conf : list nat) (var2 f : nat) (t : ifactor T) : outcome (ifactor T) :=
  fc <- rd (v_factors g) f ;;
  out <- factorMarginal f ;;
  '(kv, ks, uv) <- split_known conf (fst fc) var2 ;;
  out <- if_fixVariables T v0 out kv ks ;;
  out <- (match uv with
          | [] => Ret out
          | _ :: _ => '(a, vi) <- AccumulateSomeInplace T v0 (a_neutral ACC) (a_op ACC) vzero (if_fn out) (if_vi out) uv ;; Ret (mkIF vi a)
          end) ;;
  '(a, vi) <- BinaryOperationInplace T v0 (o_op OP) (if_fn t) (fun _ => t_fn T (if_fn out)) (if_vi t) (if_vi out) ;;
  Ret (mkIF vi a).

(** inference.hxx:173-207: the label of var2 from the factor [afactor]. *)
Definition label_from_factor (conf : list nat) (var2 afactor : nat) : outcome nat :=
  t <- foldM (fun t f => if f =? afactor then combine_factor conf var2 f t else Ret t) (facs_of T g var2) (if_constant T vone) ;;
  '(_, state) <- AccumulateAllState T (a_neutral ACC) (a_bop ACC) (a_op ACC) (t_fn T (if_fn t)) ;;
  rd state 0.

(** The local variables of constrainedOptimum, inference.hxx:144-149; the back of waitingVariables is the head of the list. *)
Record cstate : Type := mkC { c_conf : list nat; c_wait : list nat; c_fixed : nat }.

(** inference.hxx:165-210: one factor of the variable [var]. *)
Definition visit_factor (var : nat) (st : cstate) (f : nat) : outcome cstate :=
  fc <- rd (v_factors g) f ;;
  var2 <- find_unset (c_conf st) (fst fc) var ;;
  if var2 =? var then Ret st
  else
    l <- label_from_factor (c_conf st) var2 f ;;
    conf <- wr (c_conf st) var2 l ;;
    Ret (mkC conf (var2 :: c_wait st) (S (c_fixed st))).

(** inference.hxx:159-212: the inner loop; [fuel] bounds the number of iterations. *)
Fixpoint drain (fuel : nat) (st : cstate) : outcome cstate :=
  match c_wait st with
  | [] => Ret st
  | var :: rest =>
      if c_fixed st <? n then
        match fuel with
        | 0 => Diverge
        | S fuel => st <- foldM (visit_factor var) (facs_of T g var) (mkC (c_conf st) rest (c_fixed st)) ;; drain fuel st
        end
      else Ret st
  end.

(** inference.hxx:213-225: the label of a variable without labeled neighbours. *)
Definition set_root (st : cstate) (v : nat) : outcome cstate :=
  l <- rd (c_conf st) v ;;
  if l =? maxLabel then
    out <- marginal v ;;
    '(_, state) <- AccumulateAllState T (a_neutral ACC) (a_bop ACC) (a_op ACC) (t_fn T (if_fn out)) ;;
    l <- rd state 0 ;;
    conf <- wr (c_conf st) v l ;;
    Ret (mkC conf (v :: c_wait st) (c_fixed st))
  else Ret st.

(** inference.hxx:158-227: the outer loop over variableId. *)
Fixpoint settle (ids : list nat) (st : cstate) : outcome cstate :=
  match ids with
  | [] => Ret st
  | v :: ids =>
      if c_fixed st <? n then st <- drain n st ;; st <- set_root st v ;; settle ids st
      else Ret st
  end.

(** inference.hxx:136-229; the asserts of lines 150-153 are not modelled. *)
Definition constrainedOptimum (variableIndices givenLabels : list nat) : outcome (list nat) :=
  st <- foldM (fun st i =>
      v <- rd variableIndices i ;; l <- rd givenLabels i ;;
      conf <- wr (c_conf st) v l ;;
      Ret (mkC conf (v :: c_wait st) (S (c_fixed st))))
    (seq 0 (length givenLabels)) (mkC (repeat maxLabel n) [] 0) ;;
  st <- settle (seq 0 n) st ;;
  Ret (c_conf st).

(** inference.hxx:357-396. *)
Definition modeFromFactorMarginal : outcome (list nat) :=
  '(knownVariables, knownStates) <- foldM (fun (st : list nat * list nat) v =>
      '(state, unique) <- unique_label v ;;
      Ret (if unique : bool then (fst st ++ [v], snd st ++ [state]) else st)) (seq 0 n) ([], []) ;;
  constrainedOptimum knownVariables knownStates.
End Mode.

(** messagepassing.hxx:553-576: the marginals of the messages as factors; 619-638: arg. *)
Section Arg.
Variable T : Type.
Variable OP : oper T.
Variable ACC : accum T.
Variable mult : bool.
Variable small : T -> bool.
Variable close : T -> T -> bool.
Variables vone v0 vzero : T.
Variable maxLabel : nat.
Variable g : gmv T.
Definition mp_marginal_factor (s : mp T) (v : nat) : outcome (ifactor T) :=
  labels <- rd (v_labels g) v ;;
  out <- mp_marginal T OP ACC mult small g s v ;;
  Ret (mkIF [v] (mkTable [labels] out)).
Definition mp_factorMarginal_factor (s : mp T) (f : nat) : outcome (ifactor T) :=
  fc <- rd (v_factors g) f ;;
  out <- mp_factorMarginal T OP ACC mult small g s f ;;
  Ret (mkIF (fst fc) (mkTable (map (fun v => nth v (v_labels g) 0) (fst fc)) out)).
(** constrainedOptimum and arg of an object with these marginals. *)
Definition mp_constrainedOptimum (s : mp T) (variableIndices givenLabels : list nat) : outcome (list nat) :=
  constrainedOptimum T OP ACC vone v0 vzero maxLabel g (mp_marginal_factor s) (mp_factorMarginal_factor s) variableIndices givenLabels.
Definition mp_modeFromMarginal (s : mp T) : outcome (list nat) := modeFromMarginal T ACC g (mp_marginal_factor s).
Definition mp_arg (s : mp T) (N : nat) : outcome (list nat) :=
  if negb (N =? 1) then Throw
  else modeFromFactorMarginal T OP ACC close vone v0 vzero maxLabel g (mp_marginal_factor s) (mp_factorMarginal_factor s).
End Arg.
