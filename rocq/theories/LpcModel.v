(** Model of inference/lpcplex.hxx (LPCplex): the linear program a graphical model is turned into, and the use of its solution.
    Simplified: values are rational numbers with exact arithmetic; index types are unbounded; the graphical model is given by its view
    (GmView.v), a factor's shape is given by the label counts of its variables; the operation is Adder and the accumulation Minimizer or
    Maximizer (246-248, 292-298: others throw); the solver is a parameter, its options (412-553) and addMIPStart (648-661) are not
    modelled; visitors are not called; OPENGM_ASSERT is not modelled. *)
From Coq Require Import ZArith QArith Qcanon.
From Verif Require Import Base Values GmView ConstraintModel DualDecompModel FactorOpsModel.
Open Scope nat_scope.

(** What the Concert objects model_, x_, c_, obj_ hold.  All variables lie between 0 and 1 (300-306); the first [lp_bools] are boolean;
    a row is a lower bound, an upper bound and the coefficients of all variables. *)
Record lp : Type := mkLp { lp_bools : nat; lp_obj : list Qc; lp_rows : list (Qc * Qc * list Qc) }.
(** cplex_.solve(): false; an exception; or true, and then getValues, getObjValue, getBestObjValue give these *)
Inductive sres : Type := SFail | SExn | SSol (sol : list Qc) (objv best : Qc).
(** 223-238, the members *)
Record lpc : Type := mkLpc { lc_nodes : list nat; lc_factors : list nat; lc_const : Qc; lc_lp : lp;
  lc_started : bool; lc_sol : list Qc; lc_objv : Qc; lc_best : Qc }.

(** IloRange::setLinearCoef(x_[i], q), for a sequence of pairs: a later coefficient replaces an earlier one *)
Definition setCoefs (row : list Qc) (l : list (nat * Qc)) : outcome (list Qc) := foldM (fun r e => wr r (fst e) (snd e)) l row.
(** 325-345, the nested loops over a factor's labels, the last index in the outermost loop; 346-354, 371-375: the iterators of an Marray
    visit the coordinates in the same order (C16) *)
Fixpoint loop_coords (shape : list nat) : list (list nat) :=
  match shape with [] => [[]] | k :: shape => flat_map (fun c => map (fun a => a :: c) (seq 0 k)) (loop_coords shape) end.

Section Lpc.
Variable gm : gmv Qc.
(** [integer]: parameter_.integerConstraint_; [raw]: what a new IloNumArray contains *)
Variables (mx integer : bool) (raw : Qc).
Definition fshape (fc : list nat * (list nat -> Qc)) : outcome (list nat) := mapM (rd (v_labels gm)) (fst fc).

(** 259-263, enumerate variables: idNodesBegin_ and idCounter *)
Definition enum_nodes : list nat * nat := fold_left (fun s k => (fst s ++ [snd s], snd s + k)) (v_labels gm) ([], 0).
(** 265-281, enumerate factors: idFactorsBegin_, unaryFactors_, idCounter, constValue_, numberOfFactorElements *)
Record enum : Type := mkEnum { en_factors : list nat; en_unary : list (list nat); en_counter : nat; en_const : Qc; en_elements : nat }.
Definition enum_factor (ids : list nat) (s : enum) (f : nat) : outcome enum :=
  fc <- rd (v_factors gm) f ;;
  if length (fst fc) =? 0 then Ret (mkEnum (en_factors s) (en_unary s) (en_counter s) (en_const s + snd fc [])%Qc (en_elements s))
  else if length (fst fc) =? 1 then
    node <- rd (fst fc) 0 ;; u <- rd (en_unary s) node ;; un <- wr (en_unary s) node (u ++ [f]) ;;
    b <- rd ids node ;; fs <- wr (en_factors s) f b ;; Ret (mkEnum fs un (en_counter s) (en_const s) (en_elements s))
  else
    sh <- fshape fc ;; fs <- wr (en_factors s) f (en_counter s) ;;
    Ret (mkEnum fs (en_unary s) (en_counter s + shape_size sh) (en_const s) (en_elements s + shape_size sh)).
Definition enum_factors (ids : list nat) (counter : nat) : outcome enum :=
  foldM (enum_factor ids) (seq 0 (length (v_factors gm)))
    (mkEnum (repeat 0 (length (v_factors gm))) (repeat [] (length (v_labels gm))) counter 0%Qc 0).

(** 309-318, the coefficients of the labels of a variable *)
Definition obj_label (ids : list nat) (unary : list (list nat)) (node : nat) (obj : list Qc) (i : nat) : outcome (list Qc) :=
  us <- rd unary node ;;
  t <- foldM (fun t f => fc <- rd (v_factors gm) f ;; Ret (t + snd fc [i])%Qc) us 0%Qc ;;
  b <- rd ids node ;; wr obj (b + i) t.
Definition obj_node (ids : list nat) (unary : list (list nat)) (obj : list Qc) (node : nat) : outcome (list Qc) :=
  k <- rd (v_labels gm) node ;; foldM (obj_label ids unary node) (seq 0 k) obj.
(** 319-355, the coefficients of the labelings of a factor *)
Definition obj_factor (fids : list nat) (obj : list Qc) (f : nat) : outcome (list Qc) :=
  fc <- rd (v_factors gm) f ;;
  if 2 <=? length (fst fc) then
    sh <- fshape fc ;; b <- rd fids f ;;
    '(obj, _) <- foldM (fun (s : list Qc * nat) c => o <- wr (fst s) (snd s) (snd fc c) ;; Ret (o, S (snd s))) (loop_coords sh) (obj, b) ;; Ret obj
  else Ret obj.
(** 360-366 *)
Definition node_row (ids : list nat) (n node : nat) : outcome (Qc * Qc * list Qc) :=
  k <- rd (v_labels gm) node ;; b <- rd ids node ;;
  row <- setCoefs (repeat 0%Qc n) (map (fun i => (b + i, 1%Qc)) (seq 0 k)) ;; Ret (1%Qc, 1%Qc, row).
(** 377-386; [temp]: the coordinates of the factor's labelings and the LP variables (369-375); boundView(n, i) has those with n-th label i *)
Definition factor_row (ids : list nat) (n : nat) (temp : list (list nat * nat)) (m node i : nat) : outcome (Qc * Qc * list Qc) :=
  b <- rd ids node ;;
  row <- setCoefs (repeat 0%Qc n) ((b + i, Qcopp 1%Qc) :: map (fun e => (snd e, 1%Qc)) (filter (fun e => nth m (fst e) 0 =? i) temp)) ;; Ret (0%Qc, 0%Qc, row).
(** 368-390 *)
Definition factor_rows (ids fids : list nat) (n f : nat) : outcome (list (Qc * Qc * list Qc)) :=
  fc <- rd (v_factors gm) f ;;
  if 1 <? length (fst fc) then
    sh <- fshape fc ;; b <- rd fids f ;;
    let temp := combine (loop_coords sh) (seq b (length (loop_coords sh))) in
    rs <- mapM (fun m => node <- rd (fst fc) m ;; k <- rd (v_labels gm) node ;; mapM (factor_row ids n temp m node) (seq 0 k)) (seq 0 (length (fst fc))) ;;
    Ret (concat rs)
  else Ret [].
(** 240-399, constructor *)
Definition lpc_new : outcome lpc :=
  let '(ids, counter) := enum_nodes in
  e <- enum_factors ids counter ;;
  let elements := list_sum (v_labels gm) + en_elements e in
  obj <- foldM (obj_node ids (en_unary e)) (seq 0 (length (v_labels gm))) (repeat raw elements) ;;
  obj <- foldM (obj_factor (en_factors e)) (seq 0 (length (v_factors gm))) obj ;;
  r1 <- mapM (node_row ids elements) (seq 0 (length (v_labels gm))) ;;
  r2 <- mapM (factor_rows ids (en_factors e) elements) (seq 0 (length (v_factors gm))) ;;
  Ret (mkLpc ids (en_factors e) (en_const e)
    (mkLp (if integer then list_sum (v_labels gm) else 0) obj (r1 ++ concat r2)) false [] 0%Qc 0%Qc).

(** 703-713 *)
Definition lpNodeVi (s : lpc) (v label : nat) : outcome nat := b <- rd (lc_nodes s) v ;; Ret (b + label).
(** 730-750 *)
Definition lpFactorVi (s : lpc) (f : nat) (c : list nat) : outcome nat :=
  fc <- rd (v_factors gm) f ;;
  l0 <- rd c 0 ;; v0 <- rd (fst fc) 0 ;; k0 <- rd (v_labels gm) v0 ;;
  '(idx, _) <- foldM (fun (p : nat * nat) vi =>
    l <- rd c vi ;; v <- rd (fst fc) vi ;; k <- rd (v_labels gm) v ;; Ret (fst p + snd p * l, snd p * k)) (seq 1 (length (fst fc) - 1)) (l0, k0) ;;
  b <- rd (lc_factors s) f ;; Ret (b + idx).
(** 765-781 *)
Definition addConstraint (s : lpc) (idx : list nat) (coefs : list Qc) (lo hi : Qc) : outcome lpc :=
  let L := lc_lp s in
  row <- setCoefs (repeat 0%Qc (length (lp_obj L))) (combine idx coefs) ;;
  Ret (mkLpc (lc_nodes s) (lc_factors s) (lc_const s) (mkLp (lp_bools L) (lp_obj L) (lp_rows L ++ [(lo, hi, row)]))
    (lc_started s) (lc_sol s) (lc_objv s) (lc_best s)).
(** 408-568, infer: whether it returns NORMAL, and the state *)
Definition infer (solve : lp -> sres) (s : lpc) : bool * lpc :=
  let s' st := mkLpc (lc_nodes s) (lc_factors s) (lc_const s) (lc_lp s) st in
  match solve (lc_lp s) with
  | SFail => (false, s' false (lc_sol s) (lc_objv s) (lc_best s))
  | SExn => (false, s' true (lc_sol s) (lc_objv s) (lc_best s))
  | SSol sol objv best => (true, s' true sol objv best)
  end.
(** 577-603, arg: whether it returns NORMAL, and the labels *)
Definition arg_node (s : lpc) (node : nat) : outcome nat :=
  b <- rd (lc_nodes s) node ;; v <- rd (lc_sol s) b ;; k <- rd (v_labels gm) node ;;
  '(_, state) <- foldM (fun (p : Qc * nat) i => q <- rd (lc_sol s) (b + i) ;; Ret (if Qc_lt (fst p) q then (q, i) else p)) (seq 1 (k - 1)) (v, 0) ;;
  Ret state.
Definition arg (s : lpc) : outcome (bool * list nat) :=
  if lc_started s then x <- mapM (arg_node s) (seq 0 (length (v_labels gm))) ;; Ret (true, x)
  else Ret (false, repeat 0 (length (v_labels gm))).
(** 674-678 *)
Definition value (s : lpc) : outcome Qc := '(_, x) <- arg s ;; v_evaluate Qc AdderQ gm x.
(** 680-693; [None]: ACC::ineutral() *)
Definition bound (s : lpc) : option Qc :=
  if lc_started s then Some ((if integer then lc_best s else lc_objv s) + lc_const s)%Qc else None.
(** 605-618: the values of out *)
Definition variable (s : lpc) (v : nat) : outcome (list Qc) :=
  k <- rd (v_labels gm) v ;; b <- rd (lc_nodes s) v ;; mapM (fun i => rd (lc_sol s) (b + i)) (seq 0 k).
(** 620-646: out is filled with ones by assign() (graphicalmodel_factor.hxx 1020-1034); Inference::marginal() leaves it unchanged
    (inference.hxx 112-120), LPCplex does not override it *)
Definition factorVariable (s : lpc) (f : nat) : outcome (list Qc) :=
  fc <- rd (v_factors gm) f ;; sh <- fshape fc ;;
  if length (fst fc) =? 1 then Ret (repeat 1%Qc (shape_size sh))
  else b <- rd (lc_factors s) f ;; mapM (rd (lc_sol s)) (seq b (shape_size sh)).

(** Calls that change the object *)
Inductive lpc_op : Type := OAdd (idx : list nat) (coefs : list Qc) (lo hi : Qc) | OInfer (solve : lp -> sres).
Definition lpc_step (s : lpc) (o : lpc_op) : outcome lpc :=
  match o with OAdd idx coefs lo hi => addConstraint s idx coefs lo hi | OInfer solve => Ret (snd (infer solve s)) end.
Definition lpc_run (h : list lpc_op) : outcome lpc := s <- lpc_new ;; foldM lpc_step h s.
End Lpc.
