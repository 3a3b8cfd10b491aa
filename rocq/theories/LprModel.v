(** Model of inference/auxiliary/lp_reparametrization.hxx (LPReparametrisationStorage, ReparametrizationView, LPReparametrizer) and of the
    second half of TRWS_Reparametrizer::reparametrize(immovableLabeling) (inference/trws/trws_reparametrization.hxx).
    Simplified: values are rational numbers with exact arithmetic, infinite values (the start of the accumulations) are [None]; the
    machine epsilon is a parameter; index types are unbounded; the graphical model is given by its view (GmView.v); OPENGM_ASSERT is not modelled. *)
From Coq Require Import ZArith QArith Qcanon.
From Verif Require Import Base Values GmView UtilModel ConstraintModel DualDecompModel FactorOpsModel.
Open Scope nat_scope.

(** lp_reparametrization.hxx 119, _dualVariables: for each factor, for each of its variables, a value for each label *)
Definition duals : Type := list (list (list Qc)).
Definition rd3 (d : duals) (f n l : nat) : outcome Qc := r <- rd d f ;; u <- rd r n ;; rd u l.
Definition wr3 (d : duals) (f n l : nat) (x : Qc) : outcome duals :=
  r <- rd d f ;; u <- rd r n ;; u <- wr u l x ;; r <- wr r n u ;; wr d f r.
Definition Qc_fabs (a : Qc) : Qc := if Qc_lt a 0%Qc then (- a)%Qc else a.

Section Lpr.
Variable gm : gmv Qc.
Definition lnf : nat := length (v_factors gm).

(** 123-149, constructor (resize() of a vector of values makes zeros); factors with less than two variables have no dual variables *)
Definition lpr_init : outcome duals :=
  mapM (fun fc : list nat * (list nat -> Qc) =>
    if 2 <=? length (fst fc) then mapM (fun v => k <- rd (v_labels gm) v ;; Ret (repeat 0%Qc k)) (fst fc) else Ret []) (v_factors gm).
(** 131-145, _localIdMap: mapFindex[v[n]]=n, later entries win; empty for factors with less than two variables; 104-107, localId *)
Definition localId (f var : nat) : outcome nat :=
  fc <- rd (v_factors gm) f ;;
  if 2 <=? length (fst fc) then
    match fold_left (fun o n => match nth_error (fst fc) n with Some v => if v =? var then Some n else o | None => o end) (seq 0 (length (fst fc))) None with
    | Some n => Ret n | None => Throw end
  else Throw.
(** 80-100 *)
Definition getVariableValue (d : duals) (var label : nat) : outcome Qc :=
  foldM (fun res f => fc <- rd (v_factors gm) f ;;
    if length (fst fc) =? 1 then Ret (res + snd fc [label])%Qc
    else n <- localId f var ;; x <- rd3 d f n label ;; Ret (res - x)%Qc) (v_adj Qc gm var) 0%Qc.
(** 57-78; [it]: the labels the iterator gives *)
Definition getFactorValue (d : duals) (f : nat) (it : list nat) : outcome Qc :=
  fc <- rd (v_factors gm) f ;;
  if 1 <? length (fst fc) then
    foldM (fun res n => l <- rd it n ;; x <- rd3 d f n l ;; Ret (res + x)%Qc) (seq 0 (length (fst fc))) (snd fc it)
  else v <- rd (fst fc) 0 ;; l <- rd it 0 ;; getVariableValue d v l.
(** 256-264, ReparametrizationView::operator() *)
Definition repa_view (d : duals) (f : nat) (it : list nat) : outcome Qc :=
  fc <- rd (v_factors gm) f ;;
  match length (fst fc) with
  | 1 => v <- rd (fst fc) 0 ;; l <- rd it 0 ;; getVariableValue d v l
  | _ => getFactorValue d f it
  end.
(** 310-322, getReparametrizedModel: the same label space; for each factor, in the same order, a factor with the same variables and a view *)
Definition getReparametrizedModel (d : duals) : list (list nat * (list nat -> outcome Qc)) :=
  map (fun f => (match nth_error (v_factors gm) f with Some fc => fst fc | None => [] end, repa_view d f)) (seq 0 lnf).
(** GraphicalModel::evaluate (graphicalmodel.hxx 445-474, see GmView.v) of such a model *)
Definition repa_evaluate (m : list (list nat * (list nat -> outcome Qc))) (x : list nat) : outcome Qc :=
  foldM (fun acc fc => l <- mapM (rd x) (fst fc) ;; v <- snd fc l ;; Ret (v + acc)%Qc) m 0%Qc.

(** 165-183, serialize *)
Definition serialize (d : duals) : list Qc := concat (map (@concat Qc) d).
(** 185-208, deserialize; the result is the storage, which changes even if the call throws, and whether the call completes *)
Definition des_label (ser : list Qc) (f n : nat) (s : duals * nat * bool) (l : nat) : outcome (duals * nat * bool) :=
  let '(d, i, ok) := s in
  if negb ok then Ret s
  else if length ser <=? i then Ret (d, i, false)
  else x <- rd ser i ;; d <- wr3 d f n l x ;; Ret (d, S i, true).
Definition des_var (ser : list Qc) (f : nat) (s : duals * nat * bool) (n : nat) : outcome (duals * nat * bool) :=
  let '(d, i, ok) := s in r <- rd d f ;; u <- rd r n ;; foldM (des_label ser f n) (seq 0 (length u)) s.
Definition des_factor (ser : list Qc) (s : duals * nat * bool) (f : nat) : outcome (duals * nat * bool) :=
  fc <- rd (v_factors gm) f ;;
  if length (fst fc) =? 1 then Ret s else foldM (des_var ser f) (seq 0 (length (fst fc))) s.
Definition deserialize (d : duals) (ser : list Qc) : outcome (duals * bool) :=
  '(d, i, ok) <- foldM (des_factor ser) (seq 0 lnf) (d, 0, true) ;; Ret (d, ok && (i =? length ser)).

(** The calls that change a storage: writing through the iterators of getIterators(f, n) (48-55) and deserialize *)
Inductive lpr_op := LWrite (f n l : nat) (x : Qc) | LDeserialize (ser : list Qc).
Definition lpr_step (d : duals) (o : lpr_op) : outcome duals :=
  match o with LWrite f n l x => wr3 d f n l x | LDeserialize ser => '(d, _) <- deserialize d ser ;; Ret d end.
Definition lpr_run (h : list lpr_op) : outcome duals := d <- lpr_init ;; foldM lpr_step h d.

(** [mx]: ACC is Maximizer, otherwise Minimizer; [eps]: std::numeric_limits<ValueType>::epsilon() *)
Variables (mx : bool) (eps : Qc).
(** 353, accumulate<ACC>(factor, value, labels) of a factor of the reparametrized model: AccumulateAllImpl (accumulator.hxx 81-109).
    No best labeling: there is no labeling, and the reads of optimalLabelings are out of bounds. *)
Definition repa_fn (d : duals) (f : nat) (shape : list nat) : fn (option Qc) := mkFn shape (fun c => x <- repa_view d f (firstn (length shape) c) ;; Ret (Some x)).
Definition repa_best (d : duals) (f : nat) (shape : list nat) : outcome (Qc * list nat) :=
  '(v, c) <- AccumulateAllState (option Qc) None (obop mx) (oop3 mx) (repa_fn d f shape) ;;
  match v with Some q => Ret (q, c) | None => Undef end.
(** 364-367, factor.max() or factor.min() (function_properties_base.hxx 539-556): the value at the labels zero, then all values *)
Definition repa_worst (d : duals) (f : nat) (shape : list nat) : outcome Qc :=
  v0 <- repa_view d f (repeat 0 (length shape)) ;;
  single_sweep shape (shape_size shape) (fun acc c => x <- repa_view d f c ;; Ret (if better (negb mx) x acc then x else acc)) v0.

(** 337-344, the vectors computed in the first loop *)
Record arc : Type := mkArc { ar_values : list Qc; ar_labelings : list (list nat); ar_local : list nat; ar_unary : list nat; ar_worst : list Qc }.
(** 348-370 *)
Definition arc_first (d : duals) (s : arc) (f : nat) : outcome arc :=
  fc <- rd (v_factors gm) f ;; shape <- mapM (rd (v_labels gm)) (fst fc) ;;
  '(q, c) <- repa_best d f shape ;;
  if length (fst fc) =? 1 then
    v <- rd (fst fc) 0 ;; l <- rd c 0 ;; loc <- wr (ar_local s) v l ;;
    Ret (mkArc (ar_values s ++ [q]) (ar_labelings s ++ [c]) loc (ar_unary s ++ [f]) (ar_worst s ++ [0%Qc]))
  else
    w <- repa_worst d f shape ;;
    Ret (mkArc (ar_values s ++ [q]) (ar_labelings s ++ [c]) (ar_local s) (ar_unary s) (ar_worst s ++ [w])).
(** 395, std::find on the variables of the factor *)
Fixpoint find_pos (vis : list nat) (var : nat) : nat := match vis with [] => 0 | v :: vis => if v =? var then 0 else S (find_pos vis var) end.
(** 386-416, the factors of a variable; the result: is the variable still consistent *)
Fixpoint arc_factors (d : duals) (s : arc) (var : nat) (fs : list nat) : outcome bool :=
  match fs with
  | [] => Ret true
  | f :: fs =>
    fc <- rd (v_factors gm) f ;;
    if length (fst fc) <=? 1 then arc_factors d s var fs
    else
      opt <- rd (ar_labelings s) f ;; a <- rd opt (find_pos (fst fc) var) ;; b <- rd (ar_local s) var ;;
      if a =? b then arc_factors d s var fs
      else
        labeling <- mapM (rd (ar_local s)) (fst fc) ;;
        x <- repa_view d f labeling ;; q <- rd (ar_values s) f ;; w <- rd (ar_worst s) f ;;
        if Qc_lt (Qc_fabs (x - q)) (Q2Qc (inject_Z (Z.of_nat (length (fst fc)))) * Qc_fabs w * eps)%Qc then arc_factors d s var fs
        else Ret false
  end.
(** 381-417 *)
Definition arc_second (d : duals) (s : arc) (mask : list bool) (u : nat) : outcome (list bool) :=
  fc <- rd (v_factors gm) u ;; var <- rd (fst fc) 0 ;;
  ok <- arc_factors d s var (v_adj Qc gm var) ;;
  if ok : bool then Ret mask else wr mask var false.
(** 324-419, getArcConsistency: the mask and the labeling *)
Definition getArcConsistency (d : duals) : outcome (list bool * list nat) :=
  s <- foldM (arc_first d) (seq 0 lnf) (mkArc [] [] (repeat 0 (length (v_labels gm))) [] []) ;;
  mask <- foldM (arc_second d s) (ar_unary s) (repeat true (length (v_labels gm))) ;;
  Ret (mask, ar_local s).

(** trws_reparametrization.hxx 381-438, TRWS_Reparametrizer::reparametrize(immovableLabeling) after the call of reparametrize();
    [imm]: for each variable the mask of its immovable labels *)
(** 397-404 *)
Definition imm_zero (imm : list (list bool)) (f : nat) (vis : list nat) (d : duals) (n : nat) : outcome duals :=
  r <- rd d f ;; u <- rd r n ;; v <- rd vis n ;; m <- rd imm v ;;
  foldM (fun d l => b <- rd m l ;; if b : bool then wr3 d f n l 0%Qc else Ret d) (seq 0 (length u)) d.
(** 422-434, one label; the number of labels of the other variable is read with its position in the factor, and res is kept for the next label *)
Definition imm_label (f n : nat) (m : list bool) (s : duals * option Qc) (l : nat) : outcome (duals * option Qc) :=
  let '(d, res) := s in
  b <- rd m l ;;
  if b : bool then Ret s
  else
    let other := if n =? 0 then 1 else 0 in
    k <- rd (v_labels gm) other ;;
    res <- foldM (fun res l' => x <- getFactorValue d f (if n =? 0 then [l; l'] else [l'; l]) ;; Ret (oop3 mx res (Some x))) (seq 0 k) res ;;
    match res with Some q => x <- rd3 d f n l ;; d <- wr3 d f n l (x - q)%Qc ;; Ret (d, res) | None => Undef end.
(** 413-435 *)
Definition imm_var (imm : list (list bool)) (f : nat) (vis : list nat) (d : duals) (n : nat) : outcome duals :=
  r <- rd d f ;; u <- rd r n ;; v <- rd vis n ;; m <- rd imm v ;;
  '(d, _) <- foldM (imm_label f n m) (seq 0 (length u)) (d, None) ;; Ret d.
(** 390-436 *)
Definition imm_factor (imm : list (list bool)) (d : duals) (f : nat) : outcome duals :=
  fc <- rd (v_factors gm) f ;;
  if length (fst fc) <? 2 then Ret d
  else
    d <- foldM (imm_zero imm f (fst fc)) (seq 0 (length (fst fc))) d ;;
    if negb (length (fst fc) =? 2) then Throw
    else foldM (imm_var imm f (fst fc)) (seq 0 (length (fst fc))) d.
Definition reparametrizeImmovable (d : duals) (imm : list (list bool)) : outcome duals := foldM (imm_factor imm) (seq 0 lnf) d.
End Lpr.
