(** Model of inference/dualdecomposition/dualdecomposition_base.hxx, dualdecomposition_subgradient.hxx and dddualvariableblock.hxx.
    Simplified: values are rational numbers and their arithmetic is exact; infinite values (the start of the accumulations) are [None];
    size_t is unbounded; the dual variables are tables of values, wherever they are stored (mem_ or their own Marray); the tables are
    indexed with the first coordinate fastest; the solver for the submodels, the step size and the visitor are arbitrary functions;
    OPENGM_ASSERT and timing are not modelled. *)
From Coq Require Import ZArith QArith Qcanon.
From Verif Require Import Base Values GmView ShapeSpec UtilModel ConstraintModel MpModel DecompModel.
Open Scope nat_scope.

(** Adder on rational numbers *)
Definition AdderQ : oper Qc := mkOper 0%Qc Qcplus (fun a b => (b - a)%Qc).
(** Minimizer and Maximizer ([mx]): bop *)
Definition better (mx : bool) (a b : Qc) : bool := if mx then Qc_lt b a else Qc_lt a b.
(** ... and with the neutral element [None], worse than all numbers: bop, and op(value, value_) *)
Definition obop (mx : bool) (a b : option Qc) : bool :=
  match a, b with Some x, Some y => better mx x y | Some _, None => true | None, _ => false end.
Definition oop3 (mx : bool) (a b : option Qc) : option Qc := if obop mx a b then a else b.
Definition feed (mx : bool) : accumulation (option Qc) -> option Qc -> list nat -> accumulation (option Qc) := acc_feed (option Qc) (obop mx) (oop3 mx).

(** modelviewfunction.hxx 45-54: [e_view] factorIndex_ and scale_, [e_dual] offset_, as the number of the block and of the dual variable
    in it.  Both: VIEWOFFSET, one: VIEW or OFFSET. *)
Record ventry : Type := mkEntry { e_view : option (nat * Qc); e_dual : option (nat * nat) }.
(** dddualvariableblock.hxx 26-27: subFactorList_, the shape of the dual variables, and duals_ *)
Record block : Type := mkBlock { b_subs : list sub; b_shape : list nat; b_duals : list (list Qc) }.

(** dualdecomposition_base.hxx 26-80: the parameters (the others only control the step size and threads). *)
Inductive decomposition_id := TREE | SPANNINGTREES | BLOCKS (blocks : nat) | KFANS (k : nat) | MANUAL (subs : list (list nat))
  | MANUALVARCLOSE (subs : list (list nat)) | MANUALVAROPEN (subs : list (list nat)).
Record dd_params : Type := mkParams { p_id : decomposition_id; p_iterations : nat; p_abs : Qc; p_rel : Qc; p_fill : bool }.

(** dualdecomposition_base.hxx 198-204 and dualdecomposition_subgradient.hxx 101-110, the data members. *)
Record dd : Type := mkDD { dd_dec : dec; dd_labels : list (list nat); dd_factors : list (list (list nat * ventry)); dd_blocks : list block;
  dd_same : list tribool; dd_states : list (list nat); dd_upper : accumulation (option Qc); dd_neg_lower : accumulation (option Qc) }.

Section DD.
Variable gm : gmv Qc.
Definition nvar : nat := length (v_labels gm).

(** dualdecomposition_base.hxx 235-283, the decomposition *)
Definition decompose (i : decomposition_id) : outcome dec :=
  let fs := map fst (v_factors gm) in
  d <- match i with
       | TREE => decomposeIntoTree nvar fs
       | SPANNINGTREES => decomposeIntoSpanningTrees nvar fs
       | BLOCKS n => decomposeIntoClosedBlocks nvar fs n
       | KFANS k => decomposeIntoKFans nvar fs k
       | MANUAL s => decomposeManual nvar fs s
       | MANUALVARCLOSE s => decomposeIntoClosedBlocks_sets nvar fs s
       | MANUALVAROPEN s => decomposeIntoOpenBlocks nvar fs s
       end ;;
  d <- reorder d ;; complete d.

(** A table with an entry for every variable of every submodel, filled with a value for the variable of which it is a copy: lines 301-310
    (the numbers of labels) and 452-465 (subVariable2TrueVariable). *)
Definition fill_table (d : dec) (value : nat -> outcome nat) (t0 : list (list nat)) : outcome (list (list nat)) :=
  foldM (fun t v => l <- rd (d_vl d) v ;; foldM (fun t p => x <- value v ;; wr2 t (fst p) (snd p) x) l t) (seq 0 nvar) t0.

(** para.maximalDualOrder_ = 1 (lines 240-282) *)
Definition maximalDualOrder : nat := 1.
(** Lines 322, 330, 349, 374: is there a dual block? *)
Definition has_block (l : list sub) (order : nat) : bool := (1 <? length l) && (order <=? maximalDualOrder).
(** dddualvariableblock.hxx 55-68, constructor; allocate (subgradient 144-161) sets all values to zero. *)
Definition new_block (l : list sub) (shape : list nat) : block := mkBlock l shape (repeat (repeat 0%Qc (size_of shape)) (length l)).
(** The shape of a function of some variables of the model *)
Definition shape_of (vs : list nat) : outcome (list nat) := mapM (rd (v_labels gm)) vs.
(** Lines 321-341, the dual blocks for the factors and for the subfactors without a factor *)
Definition factor_block (d : dec) (bs : list block) (f : nat) : outcome (list block) :=
  l <- rd (d_fl d) f ;; fc <- rd (v_factors gm) f ;;
  if has_block l (length (fst fc)) then s <- shape_of (fst fc) ;; Ret (bs ++ [new_block l s]) else Ret bs.
Definition empty_block (bs : list block) (e : list nat * list sub) : outcome (list block) :=
  if has_block (snd e) (length (fst e)) then s <- shape_of (fst e) ;; Ret (bs ++ [new_block (snd e) s]) else Ret bs.
Definition make_blocks (d : dec) : outcome (list block) :=
  bs <- foldM (factor_block d) (seq 0 (length (v_factors gm))) [] ;; foldM empty_block (d_el d) bs.

(** subGm_[m].addFactor(subGm_[m].addFunction(function), indices), see C01; an index out of range is an access outside of the
    adjacency list of the submodel. *)
Definition add_factor (labels : list (list nat)) (subs : list (list (list nat * ventry))) (m : nat) (idx : list nat) (e : ventry) : outcome (list (list (list nat * ventry))) :=
  ls <- rd labels m ;; l <- rd subs m ;;
  if forallb (fun k => k <? length ls) idx then wr subs m (l ++ [(idx, e)]) else Undef.
(** getDualPointers(dualCounter)[i] (lines 350, 376, 399-403): out of range if there is no such block or dual variable *)
Definition dual_pointer (bs : list block) (b i : nat) : outcome (nat * nat) :=
  B <- rd bs b ;; if i <? length (b_duals B) then Ret (b, i) else Undef.
(** Lines 348-371, the subfactors of one factor; [c] is dualCounter *)
Definition add_views (d : dec) (bs : list block) (labels : list (list nat)) (st : list (list (list nat * ventry)) * nat) (f : nat) : outcome (list (list (list nat * ventry)) * nat) :=
  let '(subs, c) := st in
  l <- rd (d_fl d) f ;; fc <- rd (v_factors gm) f ;;
  let scale := (1 / Qc_of (length l))%Qc in
  if has_block l (length (fst fc)) then
    subs <- foldM (fun subs i => s <- rd l i ;; p <- dual_pointer bs c i ;; add_factor labels subs (s_model s) (s_idx s) (mkEntry (Some (f, scale)) (Some p)))
                  (seq 0 (length l)) subs ;;
    Ret (subs, S c)
  else
    subs <- foldM (fun subs s => add_factor labels subs (s_model s) (s_idx s) (mkEntry (Some (f, scale)) None)) l subs ;;
    Ret (subs, c).
(** Lines 373-384, the subfactors without a factor *)
Definition add_offsets (bs : list block) (labels : list (list nat)) (st : list (list (list nat * ventry)) * nat) (e : list nat * list sub) : outcome (list (list (list nat * ventry)) * nat) :=
  let '(subs, c) := st in
  if has_block (snd e) (length (fst e)) then
    subs <- foldM (fun subs i => s <- rd (snd e) i ;; p <- dual_pointer bs c i ;; add_factor labels subs (s_model s) (s_idx s) (mkEntry None (Some p)))
                  (seq 0 (length (snd e))) subs ;;
    Ret (subs, S c)
  else Ret (subs, c).
Definition make_factors (d : dec) (bs : list block) (labels : list (list nat)) : outcome (list (list (list nat * ventry))) :=
  st <- foldM (add_views d bs labels) (seq 0 (length (v_factors gm))) (repeat [] (d_nm d), 0) ;;
  '(subs, _) <- foldM (add_offsets bs labels) (d_el d) st ;; Ret subs.

(** dualdecomposition_base.hxx 232-385, init, for a decomposition, and the constructor, dualdecomposition_subgradient.hxx 120-140. *)
Definition dd_init (d : dec) : outcome dd :=
  t0 <- sub_table d ;;
  labels <- fill_table d (rd (v_labels gm)) t0 ;;
  bs <- make_blocks d ;;
  subs <- make_factors d bs labels ;;
  Ret (mkDD d labels subs bs (repeat TMaybe (d_nm d)) (map (fun l => repeat 0 (length l)) labels)
            (acc_init (option Qc) None) (acc_init (option Qc) None)).
Definition dd_new (p : dd_params) : outcome dd := d <- decompose (p_id p) ;; dd_init d.

(** modelviewfunction.hxx 116-135, operator() *)
Definition view_value (bs : list block) (e : ventry) (c : list nat) : Qc :=
  (match e_view e with Some (f, scale) => scale * snd (nth f (v_factors gm) ([], fun _ => 0)) c | None => 0 end +
   match e_dual e with
   | Some (b, i) => let B := nth b bs (mkBlock [] [] []) in nth (index_of (b_shape B) c) (nth i (b_duals B) []) 0
   | None => 0 end)%Qc.
(** subGm_[m] *)
Definition sub_model (st : dd) (m : nat) : gmv Qc :=
  mkGmv (nth m (dd_labels st) []) (map (fun p => (fst p, view_value (dd_blocks st) (snd p))) (nth m (dd_factors st) [])).

(** ** getBounds, dualdecomposition_base.hxx 405-498 *)
(** Lines 418-422 *)
Definition lower_bound (st : dd) (states : list (list nat)) : outcome Qc :=
  foldM (fun lb m => x <- rd states m ;; v <- v_evaluate Qc AdderQ (sub_model st m) x ;; Ret (lb + v)%Qc) (seq 0 (length (dd_labels st))) 0%Qc.
(** Lines 427-447, modelWithSameVariables_ *)
Definition same_variables (st : dd) : outcome (list tribool) :=
  first <- rd (dd_same st) 0 ;;
  match first with
  | TMaybe =>
      t <- foldM (fun t v => l <- rd (d_vl (dd_dec st)) v ;;
                    foldM (fun t p => if snd p =? v then Ret t else wr t (fst p) TFalse) l t) (seq 0 nvar) (dd_same st) ;;
      foldM (fun t m => ls <- rd (dd_labels st) m ;;
               t <- (if nvar =? length ls then Ret t else wr t m TFalse) ;;
               x <- rd t m ;; match x with TMaybe => wr t m TTrue | _ => Ret t end) (seq 0 (length (dd_labels st))) t
  | _ => Ret (dd_same st)
  end.
(** Lines 458-476: ++labelCount[l], std::map<LabelType,size_t>; the label that occurs most often, initially 0 *)
Fixpoint count_label (c : list (nat * nat)) (l : nat) : list (nat * nat) :=
  match c with
  | [] => [(l, 1)]
  | (k, n) :: t => if l <? k then (l, 1) :: c else if k <? l then (k, n) :: count_label t l else (k, S n) :: t
  end.
Definition most_frequent (c : list (nat * nat)) : nat :=
  snd (fold_left (fun st e => if fst st <? snd e then (snd e, fst e) else st) c (0, 0)).
Definition default_label (d : dec) (states : list (list nat)) : outcome (list nat) :=
  mapM (fun v => l <- rd (d_vl d) v ;; c <- foldM (fun c p => x <- rd2 states (fst p) (snd p) ;; Ret (count_label c x)) l [] ;; Ret (most_frequent c)) (seq 0 nvar).
(** ac(gm_.evaluate(label), label) *)
Definition candidate (mx : bool) (ac : accumulation (option Qc)) (x : list nat) : outcome (accumulation (option Qc)) :=
  v <- v_evaluate Qc AdderQ gm x ;; Ret (feed mx ac (Some v) x).
(** Lines 485-488, the labeling of a submodel *)
Definition filled (real : list (list nat)) (m : nat) (x def : list nat) : outcome (list nat) :=
  foldM (fun l i => v <- rd2 real m i ;; a <- rd x i ;; wr l v a) (seq 0 (length x)) def.
Definition sub_candidate (mx fill : bool) (same : list tribool) (real states : list (list nat)) (def : list nat) (ac : accumulation (option Qc)) (m : nat) : outcome (accumulation (option Qc)) :=
  t <- rd same m ;; x <- rd states m ;;
  match t with
  | TFalse => if fill then l <- filled real m x def ;; candidate mx ac l else Ret ac
  | _ => candidate mx ac x
  end.
(** The lower bound, the upper bound with its labeling, and the new modelWithSameVariables_ *)
Definition get_bounds (mx fill : bool) (st : dd) (states : list (list nat)) : outcome (Qc * accumulation (option Qc) * list tribool) :=
  lb <- lower_bound st states ;;
  same <- same_variables st ;;
  real <- (if fill then fill_table (dd_dec st) (fun v => Ret v) (map (fun l => repeat 0 (length l)) (dd_labels st)) else Ret []) ;;
  def <- default_label (dd_dec st) states ;;
  ac <- candidate mx (acc_init (option Qc) None) def ;;
  ac <- foldM (sub_candidate mx fill same real states def) (seq 0 (length (dd_labels st))) ac ;;
  Ret (lb, ac, same).

(** ** The dual step, dualdecomposition_subgradient.hxx 227-246 *)
(** duals_[i](s.begin()) += x *)
Definition add_at (D : list (list Qc)) (i o : nat) (x : Qc) : outcome (list (list Qc)) := v <- rd2 D i o ;; wr2 D i o (v + x)%Qc.
(** getPartialSubGradient (lines 312-327); [n] is s.size() *)
Definition partial_subgradient (states : list (list nat)) (s : sub) (n : nat) : outcome (list nat) :=
  mapM (fun j => k <- rd (s_idx s) j ;; rd2 states (s_model s) k) (seq 0 n).
Definition dual_move (step : Qc) (states : list (list nat)) (B : block) (n : nat) (D : list (list Qc)) (i : nat) : outcome (list (list Qc)) :=
  l <- rd (b_subs B) i ;; s <- partial_subgradient states l n ;;
  let o := index_of (b_shape B) s in
  D <- add_at D i o step ;;
  foldM (fun D j => add_at D j o (- (step / Qc_of (length (b_duals B))))%Qc) (seq 0 (length (b_duals B))) D.
Definition dual_step_block (step : Qc) (states : list (list nat)) (B : block) : outcome block :=
  first <- rd (b_subs B) 0 ;;
  D <- foldM (dual_move step states B (length (s_idx first))) (seq 0 (length (b_duals B))) (b_duals B) ;;
  Ret (mkBlock (b_subs B) (b_shape B) D).

(** ** infer, dualdecomposition_subgradient.hxx 175-277 *)
Record call : Type := mkCall { c_solve : nat -> nat -> gmv Qc -> outcome (list nat);  (* iteration, submodel *)
  c_step : nat -> dd -> Qc; c_stop : nat -> bool }.
(** Lines 263-269, the test for convergence.  A quotient with divisor zero is not a number, or infinite: the comparison is false. *)
Definition converged (p : dd_params) (upper neg_lower : option Qc) : bool :=
  match upper, neg_lower with
  | Some u, Some l => negb (Qc_lt (p_abs p) (Qc_abs (u + l)%Qc)) ||
      (if Qc_eq_dec u 0%Qc then false else negb (Qc_lt (p_rel p) (Qc_abs ((u + l) / u)%Qc)))
  | _, _ => false
  end.
(** One iteration (lines 187-246) *)
Definition iterate (mx : bool) (p : dd_params) (c : call) (it : nat) (st : dd) : outcome dd :=
  states <- foldM (fun states m => x <- c_solve c it m (sub_model st m) ;; wr states m x) (seq 0 (length (dd_labels st))) (dd_states st) ;;
  '(lb, ac, same) <- get_bounds mx (p_fill p) st states ;;
  let st := mkDD (dd_dec st) (dd_labels st) (dd_factors st) (dd_blocks st) same states
                 (feed mx (dd_upper st) (acc_value ac) (acc_state ac)) (feed mx (dd_neg_lower st) (Some (- lb)%Qc) []) in
  let step := if mx then (- c_step c it st)%Qc else c_step c it st in
  bs <- mapM (dual_step_block step states) (dd_blocks st) ;;
  Ret (mkDD (dd_dec st) (dd_labels st) (dd_factors st) bs (dd_same st) states (dd_upper st) (dd_neg_lower st)).
(** The loop: [n] iterations remain; the result is the state and whether the loop was left because of convergence. *)
Fixpoint infer_loop (mx : bool) (p : dd_params) (c : call) (n it : nat) (st : dd) : outcome (dd * bool) :=
  match n with
  | 0 => Ret (st, false)
  | S n' =>
      st <- iterate mx p c it st ;;
      if c_stop c it then Ret (st, false)
      else if converged p (acc_value (dd_upper st)) (acc_value (dd_neg_lower st)) then Ret (st, true)
      else infer_loop mx p c n' (S it) st
  end.
Definition infer (mx : bool) (p : dd_params) (c : call) (st : dd) : outcome (dd * bool) := infer_loop mx p c (p_iterations p) 0 st.

(** arg, value and bound, lines 279-301; [None] is an infinite value *)
Definition dd_arg (st : dd) : list nat := acc_state (dd_upper st).
Definition dd_value (st : dd) : option Qc := acc_value (dd_upper st).
Definition dd_bound (st : dd) : option Qc := option_map Qcopp (acc_value (dd_neg_lower st)).

(** A history of calls of infer *)
Definition dd_run (mx : bool) (p : dd_params) (st : dd) (cs : list call) : outcome dd :=
  foldM (fun st c => r <- infer mx p c st ;; Ret (fst r)) cs st.
End DD.
