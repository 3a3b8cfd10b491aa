(** Model of the constraint functions: datastructures/indicator_variable.hxx, datastructures/linear_constraint.hxx,
    functions/constraint_functions/{linear_constraint_function, label_order_function, num_labels_limitation_function}.hxx and
    functions/soft_constraint_functions/{label_cost_function, sum_constraint_function}.hxx.

    Simplified: ValueType, double and the conversions between them are exact rational numbers.  OPENGM_ASSERT is not modelled.
    The buffers violatedConstraintsIds_ and violatedConstraintsWeights_ have one cell for each constraint, and each constraint is
    written at most once: the pair of a constraint range and a weights iterator that challenge sets is the list of (number of the
    constraint, weight).  An input iterator is the list of what is still to be read; reading at its end is undefined. *)
From Coq Require Import QArith Qcanon.
From Verif Require Import Base ShapeSpec IndexingModel UtilModel FunctionsModel.
Open Scope nat_scope.

Definition Qc_lt (a b : Qc) : bool := if Qclt_le_dec a b then true else false.
Definition Qc_of (n : nat) : Qc := Q2Qc (inject_Z (Z.of_nat n)).

(** ** IndicatorVariable *)
(** indicator_variable.hxx 20; the members are variableLabelPairs_ and logicalOperatorType_. *)
Inductive lop : Type := And | Or | Not.
Record iv : Type := mkIV { iv_op : lop; iv_pairs : list (nat * nat) }.
Definition lop_code (o : lop) : nat := match o with And => 0 | Or => 1 | Not => 2 end.
(** std::pair's operator<, negated with swapped arguments, and std::sort of pairs: a total order, the result is unique. *)
Definition pair_le (p q : nat * nat) : bool := (fst p <? fst q) || ((fst p =? fst q) && (snd p <=? snd q)).
Fixpoint pair_ins (p : nat * nat) (l : list (nat * nat)) : list (nat * nat) :=
  match l with [] => [p] | q :: t => if pair_le p q then p :: q :: t else q :: pair_ins p t end.
Definition pair_sort (l : list (nat * nat)) : list (nat * nat) := fold_right pair_ins [] l.
(** indicator_variable.hxx 434-468: the constructors. *)
Definition iv_default : iv := mkIV And [].
Definition iv_new1 (variable label : nat) (o : lop) : iv := mkIV o [(variable, label)].
Definition iv_new (pairs : list (nat * nat)) (o : lop) : iv := mkIV o (pair_sort pairs).
(** indicator_variable.hxx 476-486, 501-503. *)
Definition iv_add (v : iv) (variable label : nat) : iv := mkIV (iv_op v) (pair_sort (iv_pairs v ++ [(variable, label)])).
Definition iv_setOp (v : iv) (o : lop) : iv := mkIV o (iv_pairs v).
(** indicator_variable.hxx 506-536: the three loops with their breaks. *)
Fixpoint iv_and (ps : list (nat * nat)) (x : list nat) : outcome bool :=
  match ps with [] => Ret true | p :: t => s <- rd x (fst p) ;; if negb (snd p =? s) then Ret false else iv_and t x end.
Fixpoint iv_or (ps : list (nat * nat)) (x : list nat) : outcome bool :=
  match ps with [] => Ret false | p :: t => s <- rd x (fst p) ;; if snd p =? s then Ret true else iv_or t x end.
Fixpoint iv_not (ps : list (nat * nat)) (x : list nat) : outcome bool :=
  match ps with [] => Ret true | p :: t => s <- rd x (fst p) ;; if snd p =? s then Ret false else iv_not t x end.
Definition iv_call (v : iv) (x : list nat) : outcome bool :=
  match iv_op v with And => iv_and (iv_pairs v) x | Or => iv_or (iv_pairs v) x | Not => iv_not (iv_pairs v) x end.
(** indicator_variable.hxx 553-561. *)
Fixpoint pairs_eqb (a b : list (nat * nat)) : bool :=
  match a, b with
  | [], [] => true
  | p :: a, q :: b => (fst p =? fst q) && (snd p =? snd q) && pairs_eqb a b
  | _, _ => false
  end.
Definition iv_eqb (a b : iv) : bool := (lop_code (iv_op a) =? lop_code (iv_op b)) && pairs_eqb (iv_pairs a) (iv_pairs b).
Definition iv_neb (a b : iv) : bool := negb (lop_code (iv_op a) =? lop_code (iv_op b)) || negb (pairs_eqb (iv_pairs a) (iv_pairs b)).
(** The loops of the comparisons run over both sequences of pairs and return false at the first pair that fails. *)
Fixpoint all_pairs (ok : nat * nat -> nat * nat -> bool) (a b : list (nat * nat)) : bool :=
  match a, b with p :: a, q :: b => if ok p q then all_pairs ok a b else false | _, _ => true end.
(** indicator_variable.hxx 563-589. *)
Definition iv_lt (a b : iv) : bool :=
  if lop_code (iv_op a) <? lop_code (iv_op b) then true
  else if lop_code (iv_op b) <? lop_code (iv_op a) then false
  else if length (iv_pairs b) <? length (iv_pairs a) then false
  else if length (iv_pairs a) =? length (iv_pairs b) then
    if length (iv_pairs a) =? 0 then false
    else all_pairs (fun p q => if fst q <? fst p then false else if fst p =? fst q then negb (snd q <=? snd p) else true) (iv_pairs a) (iv_pairs b)
  else true.
(** indicator_variable.hxx 591-617. *)
Definition iv_gt (a b : iv) : bool :=
  if lop_code (iv_op a) <? lop_code (iv_op b) then false
  else if lop_code (iv_op b) <? lop_code (iv_op a) then true
  else if length (iv_pairs a) <? length (iv_pairs b) then false
  else if length (iv_pairs a) =? length (iv_pairs b) then
    if length (iv_pairs a) =? 0 then false
    else all_pairs (fun p q => if fst p <? fst q then false else if fst p =? fst q then negb (snd p <=? snd q) else true) (iv_pairs a) (iv_pairs b)
  else true.
(** indicator_variable.hxx 619-642. *)
Definition iv_le (a b : iv) : bool :=
  if lop_code (iv_op a) <? lop_code (iv_op b) then true
  else if lop_code (iv_op b) <? lop_code (iv_op a) then false
  else if length (iv_pairs b) <? length (iv_pairs a) then false
  else if length (iv_pairs a) =? length (iv_pairs b) then
    all_pairs (fun p q => if fst q <? fst p then false else if fst p =? fst q then negb (snd q <? snd p) else true) (iv_pairs a) (iv_pairs b)
  else true.
(** indicator_variable.hxx 644-667. *)
Definition iv_ge (a b : iv) : bool :=
  if lop_code (iv_op a) <? lop_code (iv_op b) then false
  else if lop_code (iv_op b) <? lop_code (iv_op a) then true
  else if length (iv_pairs a) <? length (iv_pairs b) then false
  else if length (iv_pairs a) =? length (iv_pairs b) then
    all_pairs (fun p q => if fst p <? fst q then false else if fst p =? fst q then negb (snd p <? snd q) else true) (iv_pairs a) (iv_pairs b)
  else true.

(** ** LinearConstraint *)
(** linear_constraint.hxx 17. *)
Inductive cop : Type := LessEqual | Equal | GreaterEqual.
Definition cop_code (o : cop) : nat := match o with LessEqual => 0 | Equal => 1 | GreaterEqual => 2 end.
(** static_cast from an index to the enumerations (linear_constraint_function.hxx 831, 850); every other number is taken for the last one. *)
Definition cop_cast (n : nat) : cop := match n with 0 => LessEqual | 1 => Equal | _ => GreaterEqual end.
Definition lop_cast (n : nat) : lop := match n with 0 => And | 1 => Or | _ => Not end.
Record lc : Type := mkLC { lc_ivs : list iv; lc_coeffs : list Qc; lc_bound : Qc; lc_op : cop }.
(** linear_constraint.hxx 390-402. *)
Definition lc_default : lc := mkLC [] [] 0%Qc LessEqual.
Definition lc_new (ivs : list iv) (coeffs : list Qc) (bound : Qc) (o : cop) : lc := mkLC ivs coeffs bound o.
(** linear_constraint.hxx 428-456. *)
Definition lc_add (c : lc) (v : iv) (k : Qc) : lc := mkLC (lc_ivs c ++ [v]) (lc_coeffs c ++ [k]) (lc_bound c) (lc_op c).
Definition lc_add_range (c : lc) (vs : list iv) (ks : list Qc) : outcome lc :=
  ks <- mapM (rd ks) (seq 0 (length vs)) ;; Ret (mkLC (lc_ivs c ++ vs) (lc_coeffs c ++ ks) (lc_bound c) (lc_op c)).
Definition lc_setBound (c : lc) (b : Qc) : lc := mkLC (lc_ivs c) (lc_coeffs c) b (lc_op c).
Definition lc_setOp (c : lc) (o : cop) : lc := mkLC (lc_ivs c) (lc_coeffs c) (lc_bound c) o.
(** linear_constraint.hxx 458-504. *)
Definition lc_weight (o : cop) (weight : Qc) : Qc :=
  match o with
  | LessEqual => if Qc_lt 0 weight then weight else 0%Qc
  | Equal => if Qc_lt 0 weight then weight else if Qc_lt weight 0 then (- weight)%Qc else 0%Qc
  | GreaterEqual => if Qc_lt weight 0 then (- weight)%Qc else 0%Qc
  end.
Definition lc_call (c : lc) (x : list nat) : outcome Qc :=
  lhs <- foldM (fun lhs i => v <- rd (lc_ivs c) i ;; t <- iv_call v x ;; if t : bool then k <- rd (lc_coeffs c) i ;; Ret (lhs + k)%Qc else Ret lhs)
           (seq 0 (length (lc_ivs c))) 0%Qc ;;
  Ret (lc_weight (lc_op c) (lhs - lc_bound c)%Qc).

(** ** The interface of the constraint functions (linear_constraint_function_base.hxx 27-49) beside the function interface *)
Record cftype (F : Type) : Type := mkCf {
  cf_ft : ftype Qc F;
  cf_constraints : F -> list lc;            (* linearConstraintsBegin, linearConstraintsEnd *)
  cf_indicators : F -> list iv;             (* indicatorVariablesOrderBegin, indicatorVariablesOrderEnd *)
  cf_challenge : F -> list nat -> Qc -> outcome (list (nat * Qc));
  cf_relaxed : F -> list Qc -> Qc -> outcome (list (nat * Qc));
  cf_min : F -> Qc; cf_max : F -> Qc; cf_minMax : F -> Qc * Qc }.
Arguments mkCf {F}. Arguments cf_ft {F}. Arguments cf_constraints {F}. Arguments cf_indicators {F}. Arguments cf_challenge {F}.
Arguments cf_relaxed {F}. Arguments cf_min {F}. Arguments cf_max {F}. Arguments cf_minMax {F}.
(** min, max, minMax of the two return values: linear_constraint_function.hxx 508-526, label_order_function.hxx 564-582,
    num_labels_limitation_function.hxx 527-545. *)
Definition two_min (valid invalid : Qc) : Qc := if Qc_lt valid invalid then valid else invalid.
Definition two_max (valid invalid : Qc) : Qc := if Qc_lt invalid valid then valid else invalid.
Definition two_minMax (valid invalid : Qc) : Qc * Qc := if Qc_lt valid invalid then (valid, invalid) else (invalid, valid).

(** *it++ on an input iterator, and loops of it. *)
Definition next {A : Type} (it : list A) : outcome (A * list A) := match it with [] => Undef | a :: t => Ret (a, t) end.
Fixpoint reads {A B C : Type} (f : C -> list A -> outcome (B * list A)) (l : list C) (it : list A) : outcome (list B * list A) :=
  match l with
  | [] => Ret ([], it)
  | c :: l => '(b, it) <- f c it ;; '(bs, it) <- reads f l it ;; Ret (b :: bs, it)
  end.
Definition nexts {A : Type} (n : nat) (it : list A) : outcome (list A * list A) := reads (fun _ => next) (seq 0 n) it.

(** ** LinearConstraintFunction *)
Record lcf : Type := mkLcf { lf_shape : list nat; lf_size : Z; lf_constraints : list lc; lf_valid : Qc; lf_invalid : Qc;
  lf_list : list iv; lf_table : list (list nat) }.
(** std::find over a sequence of indicator variables: the distance to the first equal one, the length if there is none. *)
Fixpoint iv_find (l : list iv) (v : iv) : nat := match l with [] => 0 | w :: t => if iv_eqb w v then 0 else S (iv_find t v) end.
Section LinearConstraintFunction.
(** std::sort of indicator variables by their operator<. *)
Variable iv_sort : list iv -> outcome (list iv).
(** OPENGM_FLOAT_TOL, function_properties_base.hxx 23. *)
Variable FLOAT_TOL : Qc.
(** linear_constraint_function.hxx 652-665. *)
Definition lcf_fill (cs : list lc) : outcome (list iv) :=
  iv_sort (fold_left (fun l c => fold_left (fun l v => if iv_find l v =? length l then l ++ [v] else l) (lc_ivs c) l) cs []).
(** linear_constraint_function.hxx 667-678. *)
Definition lcf_lookup (l : list iv) (cs : list lc) : list (list nat) := map (fun c => map (iv_find l) (lc_ivs c)) cs.
(** linear_constraint_function.hxx 438-473. *)
Definition lcf_new (shape : list nat) (cs : list lc) (valid invalid : Qc) : outcome lcf :=
  l <- lcf_fill cs ;; Ret (mkLcf shape (accumulate_size shape) cs valid invalid l (lcf_lookup l cs)).
(** linear_constraint_function.hxx 479-490. *)
Fixpoint lcf_check (cs : list lc) (x : list nat) : outcome bool :=
  match cs with [] => Ret true | c :: t => w <- lc_call c x ;; if Qc_lt FLOAT_TOL w then Ret false else lcf_check t x end.
Definition lcf_call (f : lcf) (x : list nat) : outcome Qc :=
  b <- lcf_check (lf_constraints f) x ;; Ret (if b : bool then lf_valid f else lf_invalid f).
(** linear_constraint_function.hxx 548-564. *)
Definition lcf_challenge (f : lcf) (x : list nat) (tolerance : Qc) : outcome (list (nat * Qc)) :=
  foldM (fun out i => c <- rd (lf_constraints f) i ;; w <- lc_call c x ;; Ret (if Qc_lt tolerance w then out ++ [(i, w)] else out))
    (seq 0 (length (lf_constraints f))) [].
(** linear_constraint_function.hxx 566-623. *)
Definition lcf_relaxed (f : lcf) (y : list Qc) (tolerance : Qc) : outcome (list (nat * Qc)) :=
  foldM (fun out i => c <- rd (lf_constraints f) i ;; row <- rd (lf_table f) i ;;
      result <- foldM (fun r j => id <- rd row j ;; v <- rd y id ;; k <- rd (lc_coeffs c) j ;; Ret (r + v * k)%Qc) (seq 0 (length row)) 0%Qc ;;
      let weight := (result - lc_bound c)%Qc in
      Ret (match lc_op c with
           | LessEqual => if Qc_lt tolerance weight then out ++ [(i, weight)] else out
           | Equal => if Qc_lt tolerance weight then out ++ [(i, weight)] else if Qc_lt weight (- tolerance)%Qc then out ++ [(i, (- weight)%Qc)] else out
           | GreaterEqual => if Qc_lt weight (- tolerance)%Qc then out ++ [(i, (- weight)%Qc)] else out
           end))
    (seq 0 (length (lf_constraints f))) [].
(** linear_constraint_function.hxx 681-709. *)
Definition lcf_indexSequenceSize (f : lcf) : nat :=
  let n := length (lf_constraints f) in
  1 + length (lf_shape f) + n + 1 + n + fold_left (fun s c => s + length (lc_ivs c)) (lf_constraints f) 0 * 2
  + fold_left (fun s c => fold_left (fun s v => s + length (iv_pairs v)) (lc_ivs c) s) (lf_constraints f) 0 * 2.
(** linear_constraint_function.hxx 711-726. *)
Definition lcf_valueSequenceSize (f : lcf) : nat :=
  length (lf_constraints f) + 1 + 1 + fold_left (fun s c => s + length (lc_coeffs c)) (lf_constraints f) 0.
(** linear_constraint_function.hxx 728-809. *)
Definition lcf_serialize (f : lcf) : outcome (list nat * list Qc) :=
  let cs := lf_constraints f in
  Ret (length (lf_shape f) :: lf_shape f ++ length cs :: map (fun c => cop_code (lc_op c)) cs ++ map (fun c => length (lc_ivs c)) cs
         ++ concat (map (fun c => concat (map (fun v => [lop_code (iv_op v); length (iv_pairs v)]) (lc_ivs c))) cs)
         ++ concat (map (fun c => concat (map (fun v => concat (map (fun p => [fst p; snd p]) (iv_pairs v))) (lc_ivs c))) cs),
       map lc_bound cs ++ lf_valid f :: lf_invalid f :: concat (map lc_coeffs cs)).
(** linear_constraint_function.hxx 811-909. *)
Definition lcf_deserialize (ix : list nat) (vs : list Qc) (_ : lcf) : outcome lcf :=
  '(dimension, ix) <- next ix ;; '(shape, ix) <- nexts dimension ix ;; '(n, ix) <- next ix ;;
  '(ops, ix) <- nexts n ix ;; '(nums, ix) <- nexts n ix ;;
  '(kinds, ix) <- reads (fun num it => reads (fun _ it => '(o, it) <- next it ;; '(k, it) <- next it ;; Ret ((lop_cast o, k), it)) (seq 0 num) it) nums ix ;;
  '(ivs, ix) <- reads (fun kinds it => reads (fun (kind : lop * nat) it =>
        '(ps, it) <- reads (fun _ it => '(a, it) <- next it ;; '(b, it) <- next it ;; Ret ((a, b), it)) (seq 0 (snd kind)) it ;;
        Ret (iv_setOp (fold_left (fun v p => iv_add v (fst p) (snd p)) ps iv_default) (fst kind), it)) kinds it) kinds ix ;;
  '(bounds, vs) <- nexts n vs ;; '(valid, vs) <- next vs ;; '(invalid, vs) <- next vs ;;
  '(coeffs, vs) <- reads (fun num it => nexts num it) nums vs ;;
  cs <- mapM (fun i => o <- rd ops i ;; b <- rd bounds i ;; v <- rd ivs i ;; k <- rd coeffs i ;;
                       lc_add_range (lc_setBound (lc_setOp lc_default (cop_cast o)) b) v k) (seq 0 n) ;;
  lcf_new shape cs valid invalid.
(** linear_constraint_function.hxx 492-506, 528-546. *)
Definition lcf_ft : ftype Qc lcf :=
  mkFt (fun f => length (lf_shape f)) (fun f => rd (lf_shape f)) lf_size lcf_call lcf_indexSequenceSize lcf_valueSequenceSize lcf_serialize lcf_deserialize.
Definition lcf_cf : cftype lcf :=
  mkCf lcf_ft lf_constraints lf_list lcf_challenge lcf_relaxed (fun f => two_min (lf_valid f) (lf_invalid f)) (fun f => two_max (lf_valid f) (lf_invalid f))
       (fun f => two_minMax (lf_valid f) (lf_invalid f)).
End LinearConstraintFunction.

(** ** LabelOrderFunction, with useSingleConstraint_ and not useMultipleConstraints_ (label_order_function.hxx 24-25) *)
Record lof : Type := mkLof { lo_n1 : nat; lo_n2 : nat; lo_order : list Qc; lo_valid : Qc; lo_invalid : Qc; lo_constraint : lc; lo_list : list iv }.
(** label_order_function.hxx 680-712 and the constructors, 487-531: [order] is labelOrder_. *)
Definition lof_new (n1 n2 : nat) (order : list Qc) (valid invalid : Qc) : outcome lof :=
  c <- foldM (fun c i => k <- rd order i ;; Ret (lc_add c (iv_new1 0 i And) k)) (seq 0 n1) (lc_setOp (lc_setBound lc_default 0%Qc) LessEqual) ;;
  c <- foldM (fun c i => k <- rd order i ;; Ret (lc_add c (iv_new1 1 i And) (- k)%Qc)) (seq 0 n2) c ;;
  Ret (mkLof n1 n2 order valid invalid c (map (fun i => iv_new1 0 i And) (seq 0 n1) ++ map (fun i => iv_new1 1 i And) (seq 0 n2))).
(** label_order_function.hxx 509-531: the constructor from an iterator copies max(numLabelsVar1, numLabelsVar2) values. *)
Definition lof_new_it (n1 n2 : nat) (it : list Qc) (valid invalid : Qc) : outcome lof :=
  order <- mapM (rd it) (seq 0 (Nat.max n1 n2)) ;; lof_new n1 n2 order valid invalid.
(** label_order_function.hxx 538-546. *)
Definition lof_call (f : lof) (x : list nat) : outcome Qc :=
  a <- rd x 0 ;; b <- rd x 1 ;; p <- rd (lo_order f) a ;; q <- rd (lo_order f) b ;; Ret (if Qc_lt q p then lo_invalid f else lo_valid f).
(** label_order_function.hxx 604-629. *)
Definition lof_challenge (f : lof) (x : list nat) (tolerance : Qc) : outcome (list (nat * Qc)) :=
  a <- rd x 0 ;; b <- rd x 1 ;; p <- rd (lo_order f) a ;; q <- rd (lo_order f) b ;;
  let weight := (p - q)%Qc in Ret (if Qc_lt tolerance weight then [(0, weight)] else []).
(** label_order_function.hxx 631-669. *)
Definition lof_relaxed (f : lof) (y : list Qc) (tolerance : Qc) : outcome (list (nat * Qc)) :=
  w2 <- foldM (fun w i => k <- rd (lo_order f) i ;; v <- rd y (lo_n1 f + i) ;; Ret (w - k * v)%Qc) (seq 0 (lo_n2 f)) 0%Qc ;;
  total <- foldM (fun w i => k <- rd (lo_order f) i ;; v <- rd y i ;; Ret (w + k * v)%Qc) (seq 0 (lo_n1 f)) w2 ;;
  Ret (if Qc_lt tolerance total then [(0, total)] else []).
(** label_order_function.hxx 731-755, 757-782. *)
Definition lof_serialize (f : lof) : outcome (list nat * list Qc) :=
  vs <- mapM (rd (lo_order f)) (seq 0 (length (lo_order f))) ;;
  Ret ([lo_n1 f; lo_n2 f; length (lo_order f)], vs ++ [lo_valid f; lo_invalid f]).
Definition lof_deserialize (ix : list nat) (vs : list Qc) (_ : lof) : outcome lof :=
  '(n1, ix) <- next ix ;; '(n2, ix) <- next ix ;; '(k, ix) <- next ix ;;
  '(order, vs) <- nexts k vs ;; '(valid, vs) <- next vs ;; '(invalid, vs) <- next vs ;; lof_new n1 n2 order valid invalid.
(** label_order_function.hxx 548-562, 584-602, 715-729; size_ is the product of the two numbers of labels, 490, 513. *)
Definition lof_ft : ftype Qc lof :=
  mkFt (fun _ => 2) (fun f i => Ret (if i =? 0 then lo_n1 f else lo_n2 f)) (fun f => Z.of_nat (lo_n1 f * lo_n2 f)) lof_call
       (fun _ => 3) (fun f => length (lo_order f) + 2) lof_serialize lof_deserialize.
Definition lof_cf : cftype lof :=
  mkCf lof_ft (fun f => [lo_constraint f]) lo_list lof_challenge lof_relaxed (fun f => two_min (lo_valid f) (lo_invalid f))
       (fun f => two_max (lo_valid f) (lo_invalid f)) (fun f => two_minMax (lo_valid f) (lo_invalid f)).

(** ** The members shape_, numVariables_, useSameNumLabels_, maxNumLabels_ and size_ of three of the functions *)
Record vshape : Type := mkVs { vs_shape : list nat; vs_num : nat; vs_same : bool; vs_max : nat; vs_size : Z }.
(** num_labels_limitation_function.hxx 455-459, label_cost_function.hxx 294-297, sum_constraint_function.hxx 312-315. *)
Definition vs_list (shape : list nat) : vshape :=
  mkVs shape (length shape) (match shape with [] => true | _ :: t => forallb (fun p => fst p =? snd p) (combine t shape) end)
       (match shape with [] => 0 | a :: t => fold_left Nat.max t a end) (accumulate_size shape).
(** num_labels_limitation_function.hxx 472-474, label_cost_function.hxx 317-319, sum_constraint_function.hxx 336-338. *)
Definition vs_uniform (numVariables numLabels : nat) : outcome vshape :=
  s <- unsignedIntegerPow (N.of_nat numLabels) (N.of_nat numVariables) ;; Ret (mkVs [] numVariables true numLabels (Z.of_N s)).
(** num_labels_limitation_function.hxx 511-515, label_cost_function.hxx 370-378, sum_constraint_function.hxx 377-385. *)
Definition vs_get (s : vshape) (i : nat) : outcome nat := if vs_same s then Ret (vs_max s) else rd (vs_shape s) i.
(** The numbers of labels as they are written and read: num_labels_limitation_function.hxx 677-685, 709-711 and the like. *)
Definition vs_write (s : vshape) : outcome (list nat) := if vs_same s then Ret [vs_max s] else mapM (rd (vs_shape s)) (seq 0 (length (vs_shape s))).

(** ** NumLabelsLimitationFunction *)
Record nlf : Type := mkNlf { nl_sh : vshape; nl_maxUsed : nat; nl_valid : Qc; nl_invalid : Qc; nl_list : list iv; nl_constraint : lc }.
(** num_labels_limitation_function.hxx 622-636. *)
Definition nlf_indicator (s : vshape) (i : nat) : outcome iv :=
  foldM (fun v j => if vs_same s then Ret (iv_add v j i) else n <- rd (vs_shape s) j ;; if i <? n then Ret (iv_add v j i) else Ret v)
    (seq 0 (vs_num s)) (iv_setOp iv_default Or).
(** num_labels_limitation_function.hxx 452-483, 638-645: the bodies of both constructors. *)
Definition nlf_build (s : vshape) (maxUsed : nat) (valid invalid : Qc) : outcome nlf :=
  l <- mapM (nlf_indicator s) (seq 0 (vs_max s)) ;;
  c <- foldM (fun c i => v <- rd l i ;; Ret (lc_add c v 1%Qc)) (seq 0 (vs_max s)) (lc_setOp (lc_setBound lc_default (Qc_of maxUsed)) LessEqual) ;;
  Ret (mkNlf s maxUsed valid invalid l c).
Definition nlf_new (shape : list nat) (maxUsed : nat) (valid invalid : Qc) : outcome nlf := nlf_build (vs_list shape) maxUsed valid invalid.
Definition nlf_new_uniform (numVariables numLabels maxUsed : nat) (valid invalid : Qc) : outcome nlf :=
  s <- vs_uniform numVariables numLabels ;; nlf_build s maxUsed valid invalid.
(** num_labels_limitation_function.hxx 490-509: is the limit kept? *)
Fixpoint nlf_loop (x : list nat) (maxUsed n i : nat) (used : list bool) (found : nat) : outcome bool :=
  match n with
  | 0 => Ret true
  | S n => l <- rd x i ;; u <- rd used l ;;
      if negb u then used <- wr used l true ;; if maxUsed <? S found then Ret false else nlf_loop x maxUsed n (S i) used (S found)
      else nlf_loop x maxUsed n (S i) used found
  end.
Definition nlf_call (f : nlf) (x : list nat) : outcome Qc :=
  b <- nlf_loop x (nl_maxUsed f) (vs_num (nl_sh f)) 0 (repeat false (vs_max (nl_sh f))) 0 ;; Ret (if b : bool then nl_valid f else nl_invalid f).
(** num_labels_limitation_function.hxx 567-600: the count of labels with the break at all of them. *)
Fixpoint nlf_count (x : list nat) (maxLabels n i : nat) (used : list bool) (found : nat) : outcome nat :=
  match n with
  | 0 => Ret found
  | S n => l <- rd x i ;; u <- rd used l ;;
      if negb u then used <- wr used l true ;; if S found =? maxLabels then Ret (S found) else nlf_count x maxLabels n (S i) used (S found)
      else nlf_count x maxLabels n (S i) used found
  end.
Definition nlf_challenge (f : nlf) (x : list nat) (tolerance : Qc) : outcome (list (nat * Qc)) :=
  found <- nlf_count x (vs_max (nl_sh f)) (vs_num (nl_sh f)) 0 (repeat false (vs_max (nl_sh f))) 0 ;;
  let weight := (Qc_of found - Qc_of (nl_maxUsed f))%Qc in Ret (if Qc_lt tolerance weight then [(0, weight)] else []).
(** num_labels_limitation_function.hxx 602-620; if nothing is violated, the weights iterator is not set and the range is empty. *)
Definition nlf_relaxed (f : nlf) (y : list Qc) (tolerance : Qc) : outcome (list (nat * Qc)) :=
  weight <- foldM (fun w i => v <- rd y i ;; Ret (w + v)%Qc) (seq 0 (vs_max (nl_sh f))) (- Qc_of (nl_maxUsed f))%Qc ;;
  Ret (if Qc_lt tolerance weight then [(0, weight)] else []).
(** num_labels_limitation_function.hxx 648-665, 667-694. *)
Definition nlf_serialize (f : nlf) : outcome (list nat * list Qc) :=
  s <- vs_write (nl_sh f) ;;
  Ret ((if vs_same (nl_sh f) then 1 else 0) :: vs_num (nl_sh f) :: s ++ [nl_maxUsed f], [nl_valid f; nl_invalid f]).
(** num_labels_limitation_function.hxx 696-729. *)
Definition nlf_deserialize (ix : list nat) (vs : list Qc) (_ : nlf) : outcome nlf :=
  '(same, ix) <- next ix ;; '(n, ix) <- next ix ;; '(shape, ix) <- nexts (if negb (same =? 0) then 1 else n) ix ;; '(maxUsed, ix) <- next ix ;;
  '(valid, vs) <- next vs ;; '(invalid, vs) <- next vs ;;
  if negb (same =? 0) then k <- rd shape 0 ;; nlf_new_uniform n k maxUsed valid invalid else nlf_new shape maxUsed valid invalid.
(** num_labels_limitation_function.hxx 511-525, 547-565. *)
Definition nlf_ft : ftype Qc nlf :=
  mkFt (fun f => vs_num (nl_sh f)) (fun f => vs_get (nl_sh f)) (fun f => vs_size (nl_sh f)) nlf_call
       (fun f => 1 + 1 + (if vs_same (nl_sh f) then 1 else length (vs_shape (nl_sh f))) + 1) (fun _ => 2) nlf_serialize nlf_deserialize.
Definition nlf_cf : cftype nlf :=
  mkCf nlf_ft (fun f => [nl_constraint f]) nl_list nlf_challenge nlf_relaxed (fun f => two_min (nl_valid f) (nl_invalid f))
       (fun f => two_max (nl_valid f) (nl_invalid f)) (fun f => two_minMax (nl_valid f) (nl_invalid f)).

(** ** LabelCostFunction *)
(** costs_ with useSingleCost_ = false, or singleLabel_ and singleCost_. *)
Inductive lcosts : Type := Costs (costs : list Qc) | SingleCost (label : nat) (cost : Qc).
Record lcost : Type := mkLcost { lk_sh : vshape; lk_costs : lcosts }.
(** label_cost_function.hxx 291-332: the constructors. *)
Definition lcost_new (shape : list nat) (costs : lcosts) : lcost := mkLcost (vs_list shape) costs.
Definition lcost_new_uniform (numVariables numLabels : nat) (costs : lcosts) : outcome lcost :=
  s <- vs_uniform numVariables numLabels ;; Ret (mkLcost s costs).
(** label_cost_function.hxx 339-368: std::find, and the loop with its break. *)
Fixpoint find_label (x : list nat) (l n i : nat) : outcome bool :=
  match n with 0 => Ret false | S n => s <- rd x i ;; if s =? l then Ret true else find_label x l n (S i) end.
Fixpoint lcost_loop (x : list nat) (costs : list Qc) (maxLabels n i : nat) (used : list bool) (found : nat) (result : Qc) : outcome Qc :=
  match n with
  | 0 => Ret result
  | S n => l <- rd x i ;; u <- rd used l ;;
      '(used, found, result) <- (if negb u then used <- wr used l true ;; k <- rd costs l ;; Ret (used, S found, (result + k)%Qc) else Ret (used, found, result)) ;;
      if found =? maxLabels then Ret result else lcost_loop x costs maxLabels n (S i) used found result
  end.
Definition lcost_call (f : lcost) (x : list nat) : outcome Qc :=
  match lk_costs f with
  | SingleCost label cost => b <- find_label x label (vs_num (lk_sh f)) 0 ;; Ret (if b : bool then cost else 0%Qc)
  | Costs costs => lcost_loop x costs (vs_max (lk_sh f)) (vs_num (lk_sh f)) 0 (repeat false (vs_max (lk_sh f))) 0 0%Qc
  end.
(** label_cost_function.hxx 412-454; the shape is written by dimension(), which is the length of shape_ where it is written. *)
Definition lcost_serialize (f : lcost) : outcome (list nat * list Qc) :=
  s <- (if vs_same (lk_sh f) then Ret [vs_max (lk_sh f)] else mapM (rd (vs_shape (lk_sh f))) (seq 0 (vs_num (lk_sh f)))) ;;
  let head := vs_num (lk_sh f) :: (if vs_same (lk_sh f) then 1 else 0) :: s in
  match lk_costs f with
  | SingleCost label cost => Ret (head ++ [1; label], [cost])
  | Costs costs => vs <- mapM (rd costs) (seq 0 (length costs)) ;; Ret (head ++ [0; length costs], vs)
  end.
(** label_cost_function.hxx 456-501.  With a single cost, costsEnd = valueInIterator + label is formed, possibly behind the end of the
    sequence, but not read: not modelled. *)
Definition lcost_deserialize (ix : list nat) (vs : list Qc) (_ : lcost) : outcome lcost :=
  '(dimension, ix) <- next ix ;; '(same, ix) <- next ix ;; '(shape, ix) <- nexts (if same =? 1 then 1 else dimension) ix ;;
  '(single, ix) <- next ix ;; '(k, ix) <- next ix ;;
  costs <- (if single =? 1 then '(c, _) <- next vs ;; Ret (SingleCost k c) else '(c, _) <- nexts k vs ;; Ret (Costs c)) ;;
  if same =? 1 then n <- rd shape 0 ;; lcost_new_uniform dimension n costs else Ret (lcost_new shape costs).
(** label_cost_function.hxx 370-389, 391-410. *)
Definition lcost_ft : ftype Qc lcost :=
  mkFt (fun f => vs_num (lk_sh f)) (fun f => vs_get (lk_sh f)) (fun f => vs_size (lk_sh f)) lcost_call
       (fun f => 1 + 1 + (if vs_same (lk_sh f) then 1 else vs_num (lk_sh f)) + 1 + 1)
       (fun f => match lk_costs f with SingleCost _ _ => 1 | Costs c => length c end) lcost_serialize lcost_deserialize.

(** ** SumConstraintFunction *)
Record sumf : Type := mkSumf { sc_sh : vshape; sc_coeffs : list Qc; sc_share : bool; sc_offsets : list nat; sc_lambda : Qc; sc_bound : Qc }.
(** sum_constraint_function.hxx 309-331: the offsets are sums of the numbers of labels. *)
Definition sumf_new (shape : list nat) (coeffs : list Qc) (share : bool) (lambda bound : Qc) : outcome sumf :=
  '(offsets, _) <- (if share then Ret ([], 0) else
     foldM (fun (st : list nat * nat) i => o <- wr (fst st) i (snd st) ;; n <- rd shape i ;; Ret (o, snd st + n)) (seq 0 (length shape)) (repeat 0 (length shape), 0)) ;;
  Ret (mkSumf (vs_list shape) coeffs share offsets lambda bound).
(** sum_constraint_function.hxx 333-354. *)
Definition sumf_new_uniform (numVariables numLabels : nat) (coeffs : list Qc) (share : bool) (lambda bound : Qc) : outcome sumf :=
  s <- vs_uniform numVariables numLabels ;;
  '(offsets, _) <- (if share then Ret ([], 0) else
     foldM (fun (st : list nat * nat) i => o <- wr (fst st) i (snd st) ;; Ret (o, snd st + numLabels)) (seq 0 numVariables) (repeat 0 numVariables, 0)) ;;
  Ret (mkSumf s coeffs share offsets lambda bound).
(** sum_constraint_function.hxx 361-375. *)
Definition Qc_abs (a : Qc) : Qc := if Qc_lt a 0 then (- a)%Qc else a.
Definition sumf_call (f : sumf) (x : list nat) : outcome Qc :=
  v <- foldM (fun v i => l <- rd x i ;; o <- (if sc_share f then Ret 0 else rd (sc_offsets f) i) ;; k <- rd (sc_coeffs f) (o + l) ;; Ret (v + k)%Qc)
         (seq 0 (vs_num (sc_sh f))) (- sc_bound f)%Qc ;;
  Ret (Qc_abs v * sc_lambda f)%Qc.
(** sum_constraint_function.hxx 421-459. *)
Definition sumf_serialize (f : sumf) : outcome (list nat * list Qc) :=
  s <- vs_write (sc_sh f) ;; ks <- mapM (rd (sc_coeffs f)) (seq 0 (length (sc_coeffs f))) ;;
  Ret ((if vs_same (sc_sh f) then 1 else 0) :: vs_num (sc_sh f) :: s ++ [if sc_share f then 1 else 0; length (sc_coeffs f)], ks ++ [sc_lambda f; sc_bound f]).
(** sum_constraint_function.hxx 461-500. *)
Definition sumf_deserialize (ix : list nat) (vs : list Qc) (_ : sumf) : outcome sumf :=
  '(same, ix) <- next ix ;; '(n, ix) <- next ix ;; '(shape, ix) <- nexts (if negb (same =? 0) then 1 else n) ix ;;
  '(share, ix) <- next ix ;; '(k, ix) <- next ix ;;
  '(coeffs, vs) <- nexts k vs ;; '(lambda, vs) <- next vs ;; '(bound, vs) <- next vs ;;
  if negb (same =? 0) then m <- rd shape 0 ;; sumf_new_uniform n m coeffs (negb (share =? 0)) lambda bound
  else sumf_new shape coeffs (negb (share =? 0)) lambda bound.
(** sum_constraint_function.hxx 377-396, 398-419. *)
Definition sumf_ft : ftype Qc sumf :=
  mkFt (fun f => vs_num (sc_sh f)) (fun f => vs_get (sc_sh f)) (fun f => vs_size (sc_sh f)) sumf_call
       (fun f => 1 + 1 + (if vs_same (sc_sh f) then 1 else length (vs_shape (sc_sh f))) + 1 + 1) (fun f => length (sc_coeffs f) + 1 + 1) sumf_serialize sumf_deserialize.
