(** Model of functions/operations/operator.hxx, functions/operations/accumulator.hxx and the class
    IndependentFactor of graphicalmodel/graphicalmodel_factor.hxx.

    The function of an independent factor (ExplicitFunction, i.e. Marray with the last-major default
    order) is a shape and the block of its values; the arrays themselves are modelled and verified in
    MarrayModel.v and MarrayProps.v. Operands that are only read are given by their shape and their
    evaluation at a coordinate sequence, so that they may be functions of any type. Labels and
    variable indices are [nat]; conversions between integer types and the factor 64-bit limits are
    not modelled. The dispatch on the function type (graphicalmodel_factor_operator.hxx,
    graphicalmodel_factor_accumulator.hxx) only selects the types of the operands and is the identity
    here. *)
From Verif Require Import Base IndexingModel UtilModel.

Section Ops.
Variable V : Type.
(** T(), the value an array is filled with by resize *)
Variable v0 : V.

(** marray.hxx: shape and entries of an array in last-major order without strides *)
Record table := mkTable { t_shape : list nat; t_data : list V }.

(** marray.hxx, size of a shape *)
Definition shape_size (shape : list nat) : nat := fold_left Nat.mul shape 1.

(** marray.hxx, operator()(iterator): sum of coordinate times stride; [&scalarIndex] for an array
    without dimensions addresses its only entry. A too short coordinate sequence is read behind its
    end. There is no test against the shape. *)
Fixpoint t_offset (shape c : list nat) (stride : nat) : outcome nat :=
  match shape, c with
  | [], _ => Ret 0
  | _ :: _, [] => Undef
  | s :: shape', x :: c' => o <- t_offset shape' c' (stride * s) ;; Ret (x * stride + o)
  end.
Definition t_read (t : table) (c : list nat) : outcome V :=
  o <- t_offset (t_shape t) c 1 ;; rd (t_data t) o.
Definition t_write (t : table) (c : list nat) (v : V) : outcome table :=
  o <- t_offset (t_shape t) c 1 ;; d <- wr (t_data t) o v ;; Ret (mkTable (t_shape t) d).

(** marray.hxx, operator()(integer): the entry with the given number. *)
Definition t_readn (t : table) (k : nat) : outcome V := rd (t_data t) k.
Definition t_writen (t : table) (k : nat) (v : V) : outcome table :=
  d <- wr (t_data t) k v ;; Ret (mkTable (t_shape t) d).

(** marray.hxx, assign(): no memory, no dimensions. Constructor from a value. *)
Definition t_assign : table := mkTable [] [].
Definition t_scalar (v : V) : table := mkTable [] [v].

(** marray.hxx:3890-3914 and 3818-3881, resize, for arrays without memory and for arrays without
    dimensions, which are the only ones resized by this code: an array without dimensions is created
    for an empty shape; otherwise the new block is filled with [value], and the entry of an array
    without dimensions is written to the first place of the new block, also if that is empty. *)
Definition t_resize (t : table) (shape : list nat) (value : V) : outcome table :=
  match shape with
  | [] => match t_data t with
          | [] => Ret (t_scalar v0)
          | x :: _ => Ret (t_scalar x)
          end
  | _ :: _ =>
      let block := repeat value (shape_size shape) in
      match t_data t, t_shape t with
      | [], _ => Ret (mkTable shape block)
      | x :: _, [] => b <- wr block 0 x ;; Ret (mkTable shape b)
      | _ :: _, _ :: _ => Undef
      end
  end.

(** An operand that is only read: shape(i), dimension() and operator()(iterator). *)
Record fn := mkFn { f_shape : list nat; f_read : list nat -> outcome V }.
Definition f_dim (f : fn) : nat := length (f_shape f).
Definition t_fn (t : table) : fn := mkFn (t_shape t) (t_read t).

(** ** operator.hxx:19-108, ComputeViAndAShape::computeViandShape *)

(** operator.hxx:76-79 and the like: append the variable unless it is the last one already. *)
Definition push_unless_back (vic shapeC : list nat) (v s : nat) : list nat * list nat :=
  if Nat.eqb (last vic 0) v then (vic, shapeC) else (vic ++ [v], shapeC ++ [s]).

(** operator.hxx:61-103, the loop; [fuel] bounds the number of iterations. *)
Fixpoint merge_loop (fuel : nat) (via vib shapeA shapeB : list nat) (ia ib : nat) (first : bool)
    (vic shapeC : list nat) : outcome (list nat * list nat) :=
  if (Nat.ltb ia (length via) || Nat.ltb ib (length vib))%bool then
    match fuel with
    | 0 => Diverge
    | S fuel' =>
        if first then
          x <- rd via ia ;;
          y <- rd vib ib ;;
          if Nat.leb x y then
            s <- rd shapeA ia ;;
            merge_loop fuel' via vib shapeA shapeB (S ia) ib false (vic ++ [x]) (shapeC ++ [s])
          else
            s <- rd shapeB ib ;;
            merge_loop fuel' via vib shapeA shapeB ia (S ib) false (vic ++ [y]) (shapeC ++ [s])
        else if Nat.leb (length via) ia then
          y <- rd vib ib ;;
          s <- rd shapeB ib ;;
          let '(vic', shapeC') := push_unless_back vic shapeC y s in
          merge_loop fuel' via vib shapeA shapeB ia (S ib) false vic' shapeC'
        else if Nat.leb (length vib) ib then
          x <- rd via ia ;;
          s <- rd shapeA ia ;;
          let '(vic', shapeC') := push_unless_back vic shapeC x s in
          merge_loop fuel' via vib shapeA shapeB (S ia) ib false vic' shapeC'
        else
          x <- rd via ia ;;
          y <- rd vib ib ;;
          if Nat.leb x y then
            s <- rd shapeA ia ;;
            let '(vic', shapeC') := push_unless_back vic shapeC x s in
            merge_loop fuel' via vib shapeA shapeB (S ia) ib false vic' shapeC'
          else
            s <- rd shapeB ib ;;
            let '(vic', shapeC') := push_unless_back vic shapeC y s in
            merge_loop fuel' via vib shapeA shapeB ia (S ib) false vic' shapeC'
    end
  else Ret (vic, shapeC).

(** operator.hxx:24-107; a.shape(i) is read for i < via.size(). *)
Definition computeViandShape (via vib shapeA shapeB : list nat) : outcome (list nat * list nat) :=
  match via, vib with
  | [], [] => Ret ([], [])
  | [], _ :: _ => s <- mapM (rd shapeB) (seq 0 (length vib)) ;; Ret (vib, s)
  | _ :: _, [] => s <- mapM (rd shapeA) (seq 0 (length via)) ;; Ret (via, s)
  | _ :: _, _ :: _ => merge_loop (length via + length vib) via vib shapeA shapeB 0 0 true [] []
  end.

(** operator.hxx:174-181: n steps of a TripleShapeWalker. *)
Definition triple_sweep (c : table) (vic via vib : list nat) (body : table -> list nat * list nat * list nat -> outcome table) : outcome table :=
  let dim := length (t_shape c) in
  mA <- tsw_match dim vic via ;;
  mB <- tsw_match dim vic vib ;;
  '(t, _) <- foldM (fun (st : table * (list nat * list nat * list nat)) (_ : nat) =>
      t <- body (fst st) (snd st) ;;
      w <- tsw_next dim (t_shape c) mA mB (snd st) ;;
      Ret (t, w))
    (seq 0 (length (t_data c))) (c, (repeat 0 dim, repeat 0 (length via), repeat 0 (length vib))) ;;
  Ret t.

(** operator.hxx:238-242: n steps of a DoubleShapeWalker. *)
Definition double_sweep (t : table) (shape viaNew vib : list nat) (body : table -> list nat * list nat -> outcome table) : outcome table :=
  m <- dsw_match (length shape) viaNew vib ;;
  '(t, _) <- foldM (fun (st : table * (list nat * list nat)) (_ : nat) =>
      t <- body (fst st) (snd st) ;;
      w <- dsw_next (length shape) shape m (snd st) ;;
      Ret (t, w))
    (seq 0 (length (t_data t))) (t, dsw_init (length shape) vib) ;;
  Ret t.

(** operator.hxx:189-194 and the like: n steps of a ShapeWalker. *)
Definition single_sweep {S : Type} (shape : list nat) (n : nat) (body : S -> list nat -> outcome S) (s : S) : outcome S :=
  '(s, _) <- foldM (fun (st : S * list nat) (_ : nat) =>
      s <- body (fst st) (snd st) ;;
      w <- sw_next shape (snd st) (length shape) ;;
      Ret (s, w))
    (seq 0 n) (s, sw_init (length shape)) ;;
  Ret s.

(** operator.hxx:145-210, BinaryOperationImpl::op; returns c and vic. [a] and [b] are functions
    other than c (see BinaryOperation_aliased). *)
Definition BinaryOperation (op : V -> V -> V) (a b : fn) (via vib : list nat) : outcome (table * list nat) :=
  let c := t_assign in
  '(vic, shapeC) <- computeViandShape via vib (f_shape a) (f_shape b) ;;
  c <- t_resize c shapeC v0 ;;
  let n := length (t_data c) in
  if (negb (Nat.eqb (f_dim a) 0) && negb (Nat.eqb (f_dim b) 0))%bool then
    c <- triple_sweep c vic via vib (fun c w =>
           let '(cAB, cA, cB) := w in
           x <- f_read a cA ;; y <- f_read b cB ;; t_write c cAB (op x y)) ;;
    Ret (c, vic)
  else if (Nat.eqb (f_dim a) 0 && Nat.eqb (f_dim b) 0)%bool then
    c <- t_resize c [0] v0 ;;
    x <- f_read a [0] ;; y <- f_read b [0] ;; c <- t_write c [0] (op x y) ;;
    Ret (c, vic)
  else if Nat.eqb (f_dim a) 0 then
    c <- single_sweep shapeC n (fun c w => x <- f_read a [0] ;; y <- f_read b w ;; t_write c w (op x y)) c ;;
    Ret (c, vic)
  else
    c <- single_sweep shapeC n (fun c w => x <- f_read a w ;; y <- f_read b [0] ;; t_write c w (op x y)) c ;;
    Ret (c, vic).

(** operator.hxx:145-210, called with a and c (and thus via and vic) being the same object, as by
    f.operateBinary(f,g,op): c.assign() and vic.clear() happen first. *)
Definition BinaryOperation_aliased (op : V -> V -> V) (b : fn) (vib : list nat) : outcome (table * list nat) :=
  let c := t_assign in
  '(vic, shapeC) <- computeViandShape [] vib [] (f_shape b) ;;
  c <- t_resize c shapeC v0 ;;
  let n := length (t_data c) in
  if (negb (Nat.eqb (f_dim (t_fn c)) 0) && negb (Nat.eqb (f_dim b) 0))%bool then
    c <- triple_sweep c vic vic vib (fun c w =>
           let '(cAB, cA, cB) := w in
           x <- t_read c cA ;; y <- f_read b cB ;; t_write c cAB (op x y)) ;;
    Ret (c, vic)
  else
    c <- t_resize c [0] v0 ;;
    x <- t_read c [0] ;; y <- f_read b [0] ;; c <- t_write c [0] (op x y) ;;
    Ret (c, vic).

(** operator.hxx:215-271, BinaryOperationInplaceImpl::op; returns a and via. [b t] is the second
    operand when the first one is t: a function that does not depend on t, or a itself. *)
Definition BinaryOperationInplace (op : V -> V -> V) (a : table) (b : table -> fn) (via vib : list nat) : outcome (table * list nat) :=
  '(viaNew, shapeANew) <- computeViandShape via vib (t_shape a) (f_shape (b a)) ;;
  if Nat.eqb (length viaNew) (length via) then
    if negb (Nat.eqb (length viaNew) 0) then
      if negb (Nat.eqb (length vib) 0) then
        a <- double_sweep a shapeANew viaNew vib (fun a w =>
               x <- t_read a (fst w) ;; y <- f_read (b a) (snd w) ;; t_write a (fst w) (op x y)) ;;
        Ret (a, via)
      else
        a <- double_sweep a shapeANew viaNew vib (fun a w =>
               x <- t_read a (fst w) ;; y <- f_read (b a) [0] ;; t_write a (fst w) (op x y)) ;;
        Ret (a, via)
    else
      a <- t_resize a [0] v0 ;;
      x <- t_read a [0] ;; y <- f_read (b a) [0] ;; a <- t_write a [0] (op x y) ;;
      Ret (a, viaNew)
  else
    '(aNew, viaNew) <- BinaryOperation op (t_fn a) (b a) via vib ;;
    Ret (aNew, viaNew).

(** operator.hxx:275-305, UnaryOperationImpl::op *)
Definition UnaryOperation (op : V -> V) (a : fn) : outcome table :=
  let b := t_assign in
  if negb (Nat.eqb (f_dim a) 0) then
    b <- t_resize b (f_shape a) v0 ;;
    single_sweep (f_shape a) (shape_size (f_shape a)) (fun b w => x <- f_read a w ;; t_write b w (op x)) b
  else
    b <- t_resize b [0] v0 ;;
    x <- f_read a [0] ;; t_write b [0] (op x).

(** operator.hxx:309-331, UnaryOperationInplaceImpl::op *)
Definition UnaryOperationInplace (op : V -> V) (a : table) : outcome table :=
  if negb (Nat.eqb (length (t_shape a)) 0) then
    single_sweep (t_shape a) (length (t_data a)) (fun a w => x <- t_read a w ;; t_write a w (op x)) a
  else x <- t_read a [0] ;; t_write a [0] (op x).

(** ** accumulator.hxx; ACC is given by its neutral element, bop and op *)
Variables (neutral : V) (bop : V -> V -> bool) (op3 : V -> V -> V).
(** accumulator.hxx:201 and 293, static_cast<ValueType>(0.0) *)
Variable vzero : V.

Let acc_init := acc_init V neutral.
Let acc_feed := acc_feed V bop op3.
Let acc_feed_value := acc_feed_value V op3.

(** accumulator.hxx:53-77, AccumulateAllImpl::op *)
Definition AccumulateAll (a : fn) : outcome V :=
  acc <- (if negb (Nat.eqb (f_dim a) 0) then
            single_sweep (f_shape a) (shape_size (f_shape a)) (fun acc w => x <- f_read a w ;; Ret (acc_feed_value acc x)) acc_init
          else x <- f_read a [0] ;; Ret (acc_feed_value acc_init x)) ;;
  Ret (acc_value acc).

(** accumulator.hxx:81-109, AccumulateAllImpl::op with the state; Accumulation::state(out) resizes
    out to the accumulated state *)
Definition AccumulateAllState (a : fn) : outcome (V * list nat) :=
  if negb (Nat.eqb (f_dim a) 0) then
    acc <- single_sweep (f_shape a) (shape_size (f_shape a)) (fun acc w => x <- f_read a w ;; Ret (acc_feed acc x w)) acc_init ;;
    Ret (acc_value acc, acc_state acc)
  else
    x <- f_read a [0] ;; Ret (acc_value (acc_feed_value acc_init x), []).

(** accumulator.hxx:130-149, the dimensions to accumulate over (positions) and the others *)
Definition acc_positions (viA viAcc : list nat) : list nat * list nat :=
  fold_left (fun (st : list nat * list nat) i =>
      if existsb (Nat.eqb (nth i viA 0)) viAcc then (fst st ++ [i], snd st) else (fst st, snd st ++ [i]))
    (seq 0 (length viA)) ([], []).

(** accumulator.hxx:175-195, the two loops; b is the result array of shape shapeNotAcc *)
Definition accumulate_loops (a : fn) (shapeNotAcc notAccPosition : list nat) (b : table) : outcome table :=
  let dimA := f_dim a in
  let w := sw_init (length shapeNotAcc) in
  sub <- ssw_init dimA notAccPosition w ;;
  subSize <- ssw_subSize (f_shape a) notAccPosition dimA ;;
  '(b, _, _) <- foldM (fun (st : table * list nat * list nat) (_ : nat) =>
      let '(b, w, sub) := st in
      sub <- ssw_reset dimA notAccPosition w sub ;;
      '(acc, sub) <- foldM (fun (st : accumulation V * list nat) (_ : nat) =>
          let '(acc, sub) := st in
          x <- f_read a sub ;;
          sub <- ssw_next (f_shape a) notAccPosition sub dimA ;;
          Ret (acc_feed_value acc x, sub)) (seq 0 subSize) (acc_init, sub) ;;
      b <- t_write b w (acc_value acc) ;;
      w <- sw_next shapeNotAcc w (length shapeNotAcc) ;;
      Ret (b, w, sub))
    (seq 0 (length (t_data b))) (b, w, sub) ;;
  Ret b.

(** accumulator.hxx:114-209, AccumulateSomeImpl::op; returns b and viB. In case all variables are
    accumulated over, viB stays empty. *)
Definition AccumulateSome (a : fn) (viA viAcc : list nat) : outcome (table * list nat) :=
  let b := t_assign in
  if negb (Nat.eqb (f_dim a) 0) then
    let '(accPosition, notAccPosition) := acc_positions viA viAcc in
    shapeNotAcc <- mapM (rd (f_shape a)) notAccPosition ;;
    viB <- mapM (rd viA) notAccPosition ;;
    if Nat.eqb (length accPosition) (f_dim a) then
      r <- AccumulateAll a ;;
      b <- t_resize b [] v0 ;;
      b <- t_write b [0] r ;;
      Ret (b, viB)
    else if Nat.eqb (length accPosition) 0 then
      b <- t_resize b shapeNotAcc v0 ;;
      b <- single_sweep shapeNotAcc (shape_size (f_shape a)) (fun b w => x <- f_read a w ;; t_write b w x) b ;;
      Ret (b, viA)
    else
      b <- t_resize b shapeNotAcc v0 ;;
      b <- accumulate_loops a shapeNotAcc notAccPosition b ;;
      Ret (b, viB)
  else
    let acc := acc_feed_value acc_init vzero in
    b <- t_resize b [] v0 ;;
    b <- t_write b [0] (acc_value acc) ;;
    Ret (b, []).

(** accumulator.hxx:214-300, AccumulateSomeInplaceImpl::op; returns a and viA *)
Definition AccumulateSomeInplace (a : table) (viA viAcc : list nat) : outcome (table * list nat) :=
  if negb (Nat.eqb (length (t_shape a)) 0) then
    let '(accPosition, notAccPosition) := acc_positions viA viAcc in
    shapeNotAcc <- mapM (rd (t_shape a)) notAccPosition ;;
    viB <- mapM (rd viA) notAccPosition ;;
    if Nat.eqb (length accPosition) (length (t_shape a)) then
      r <- AccumulateAll (t_fn a) ;;
      b <- t_resize t_assign [] v0 ;;
      b <- t_write b [0] r ;;
      Ret (b, [])
    else if Nat.eqb (length accPosition) 0 then Ret (a, viA)
    else
      b <- t_resize t_assign shapeNotAcc v0 ;;
      b <- accumulate_loops (t_fn a) shapeNotAcc notAccPosition b ;;
      Ret (b, viB)
  else
    let acc := acc_feed_value acc_init vzero in
    b <- t_writen t_assign 0 (acc_value acc) ;;
    Ret (b, viA).

(** ** graphicalmodel_factor.hxx, class IndependentFactor: variableIndices_ and function_ *)
Record ifactor := mkIF { if_vi : list nat; if_fn : table }.

(** graphicalmodel_factor.hxx:1077-1087, assign(constant); the constructor from a constant *)
Definition if_constant (v : V) : ifactor := mkIF [] (t_scalar v).

(** graphicalmodel_factor.hxx:1110-1127 and 1131-1147, assign(gm,begin,end,value) and constructor;
    [nl v] is gm.numberOfLabels(v). For an empty index sequence resize creates T(). *)
Definition if_fill (nl : nat -> nat) (vars : list nat) (value : V) : outcome ifactor :=
  t <- t_resize t_assign (map nl vars) value ;; Ret (mkIF vars t).

(** graphicalmodel_factor.hxx:1149-1163, copy constructor *)
Definition if_copy (src : ifactor) : outcome ifactor :=
  match if_vi src with
  | [] => x <- t_readn (if_fn src) 0 ;; Ret (mkIF [] (t_scalar x))
  | _ => Ret (mkIF (if_vi src) (if_fn src))
  end.

(** graphicalmodel_factor.hxx:1167-1193, construction from a factor *)
Definition if_of_factor (src : fn) (vars : list nat) : outcome ifactor :=
  if negb (Nat.eqb (length vars) 0) then
    t <- t_resize t_assign (f_shape src) v0 ;;
    t <- single_sweep (f_shape src) (length (t_data t)) (fun t w => x <- f_read src w ;; t_write t w x) t ;;
    Ret (mkIF vars t)
  else x <- f_read src [0] ;; Ret (mkIF vars (t_scalar x)).

(** graphicalmodel_factor.hxx:1209-1238, assignment of a factor: the entries are written by their
    number *)
Definition if_assign_factor (src : fn) (vars : list nat) : outcome ifactor :=
  if negb (Nat.eqb (length vars) 0) then
    t <- t_resize t_assign (f_shape src) v0 ;;
    '(t, _) <- foldM (fun (st : table * list nat) k =>
        x <- f_read src (snd st) ;;
        t <- t_writen (fst st) k x ;;
        w <- sw_next (f_shape src) (snd st) (length (f_shape src)) ;;
        Ret (t, w)) (seq 0 (length (t_data t))) (t, sw_init (length (f_shape src))) ;;
    Ret (mkIF vars t)
  else x <- f_read src [0] ;; Ret (mkIF vars (t_scalar x)).

(** graphicalmodel_factor.hxx:1414-1429, operateUnary; 1431-1447, operateBinary with a scalar *)
Definition if_operateUnary (op : V -> V) (f : ifactor) : outcome ifactor :=
  t <- (if negb (Nat.eqb (length (if_vi f)) 0) then
          foldM (fun t k => x <- t_readn t k ;; t_writen t k (op x)) (seq 0 (length (t_data (if_fn f)))) (if_fn f)
        else x <- t_readn (if_fn f) 0 ;; t_writen (if_fn f) 0 (op x)) ;;
  Ret (mkIF (if_vi f) t).
Definition if_operateScalar (op : V -> V -> V) (f : ifactor) (value : V) : outcome ifactor :=
  if_operateUnary (fun x => op x value) f.

(** graphicalmodel_factor.hxx:1614-1630, the variables to fix: (variablesToFix,
    positionOfVariablesToFix, newStates). [counter] is 0 whenever it is read. *)
Fixpoint fix_find (vars : list nat) (v label i : nat) (rest : list nat) (acc : list nat * list nat * list nat)
  : list nat * list nat * list nat :=
  match rest with
  | [] => acc
  | y :: rest' =>
      if Nat.ltb v y then acc
      else if Nat.eqb v y then
        let '(vs, ps, ls) := acc in
        fix_find vars v label (S i) rest' (vs ++ [v], ps ++ [i], ls ++ [label])
      else fix_find vars v label (S i) rest' acc
  end.
Fixpoint fix_collect (vars : list nat) (indices labels : list nat) (acc : list nat * list nat * list nat)
  : outcome (list nat * list nat * list nat) :=
  match indices with
  | [] => Ret acc
  | v :: indices' =>
      if Nat.ltb (last vars 0) v then Ret acc
      else
        let '(vs, ps, ls) := acc in
        (** the label is read only if the variable is found; ++beginLabels does not read *)
        match labels with
        | [] => if existsb (Nat.eqb v) vars then Undef else fix_collect vars indices' [] acc
        | l :: labels' => fix_collect vars indices' labels' (fix_find vars v l 0 vars acc)
        end
  end.

(** graphicalmodel_factor.hxx:1597-1674, fixVariables *)
Definition if_fixVariables (f : ifactor) (indices labels : list nat) : outcome ifactor :=
  match if_vi f with
  | [] => Ret f
  | _ :: _ =>
      '(variablesToFix, positionOfVariablesToFix, newStates) <- fix_collect (if_vi f) indices labels ([], [], []) ;;
      let keep := filter (fun i => negb (existsb (Nat.eqb (nth i (if_vi f) 0)) variablesToFix)) (seq 0 (length (if_vi f))) in
      let variablesNotToFix := map (fun i => nth i (if_vi f) 0) keep in
      newShape <- mapM (rd (t_shape (if_fn f))) keep ;;
      if negb (Nat.eqb (length variablesToFix) 0) then
        if Nat.eqb (length variablesToFix) (length (if_vi f)) then
          x <- t_read (if_fn f) newStates ;;
          Ret (mkIF [] (t_scalar x))
        else
          let dim := length (t_shape (if_fn f)) in
          tmp <- t_resize t_assign newShape v0 ;;
          sub <- ssw_init dim positionOfVariablesToFix newStates ;;
          subSize <- ssw_subSize (t_shape (if_fn f)) positionOfVariablesToFix dim ;;
          sub <- ssw_reset dim positionOfVariablesToFix newStates sub ;;
          '(tmp, _) <- foldM (fun (st : table * list nat) k =>
              x <- t_read (if_fn f) (snd st) ;;
              t <- t_writen (fst st) k x ;;
              w <- ssw_next (t_shape (if_fn f)) positionOfVariablesToFix (snd st) dim ;;
              Ret (t, w)) (seq 0 subSize) (tmp, sub) ;;
          Ret (mkIF variablesNotToFix tmp)
      else Ret f
  end.
End Ops.
Arguments mkTable {V}. Arguments t_shape {V}. Arguments t_data {V}.
Arguments mkFn {V}. Arguments f_shape {V}. Arguments f_read {V}.
Arguments mkIF {V}. Arguments if_vi {V}. Arguments if_fn {V}.

(** graphicalmodel_factor.hxx:1321-1333, subtractOffset: accumulate<Minimizer> with the state, then
    *this -= v, i.e. operateBinary(v, std::minus); [zero] is static_cast<ValueType>(0). *)
Definition if_subtractOffset (V : Type) (neutral zero : V) (lt : V -> V -> bool) (op3 sub : V -> V -> V)
    (f : ifactor V) : outcome (ifactor V) :=
  if Nat.eqb (length (if_vi f)) 0 then
    t <- t_writen V (if_fn f) 0 zero ;; Ret (mkIF (if_vi f) t)
  else
    '(v, _) <- AccumulateAllState V neutral lt op3 (t_fn V (if_fn f)) ;;
    if_operateScalar V sub f v.

(** operations/normalize.hxx:14-27, Normalization::normalize: [mult] is typeid(OP) == typeid(Multiplier),
    [small v] is v <= 0.00001, OP::iop(v, out) is out /= v or out -= v, i.e. operateBinary with a scalar. *)
Definition if_normalize (V : Type) (mult : bool) (small : V -> bool) (neutral : V) (op3 inv : V -> V -> V)
    (f : ifactor V) : outcome (ifactor V) :=
  v <- AccumulateAll V neutral op3 (t_fn V (if_fn f)) ;;
  if mult && small v then Ret f else if_operateScalar V inv f v.
