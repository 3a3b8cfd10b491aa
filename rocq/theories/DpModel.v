(** DynamicProgramming: include/opengm/inference/dynamicprogramming.hxx.

    The graphical model is read through its view (GmView.v).  Simplified: the part of the two flat buffers that belongs
    to a variable (valueBuffers_[i], stateBuffers_[i]; lines 146-165) is a vector of its own, so that an access outside
    this part is undefined even where the flat buffer goes on; memory from malloc and uninitialised local variables
    hold [None], and reading [None] is undefined; std::numeric_limits<...>::max(), the mark for "no order" and "no
    label", is [None]; visitors are called only before and after the computation and have no influence. *)
From Verif Require Import Base Values GmView.

Section Dp.
Variable T : Type.
Variable OP : oper T.
Variable ACC : accum T.
Variable g : gmv T.

Definition get {A : Type} (o : option A) : outcome A := match o with Some a => Ret a | None => Undef end.

(** The members, lines 65-74. *)
Record dp : Type := mkDp {
  d_order : list nat; d_nodes : list nat;
  d_val : list (list (option T)); d_st : list (list (option nat)); d_started : bool }.

(** *** The constructor *)
(** The local variables of lines 107-112; the back of nodeList is the head of [c_stack]. *)
Record ctor : Type := mkC { c_order : list (option nat); c_count : nat; c_stack : list nat; c_children : list nat }.
Definition is_none {A : Type} (o : option A) : bool := match o with None => true | Some _ => false end.

(** Lines 132-134 and 137-139. *)
Definition discover (node other : nat) (c : ctor) : outcome ctor :=
  ord <- wr (c_order c) other (Some (c_count c)) ;;
  n <- rd (c_children c) node ;;
  ch <- wr (c_children c) node (S n) ;;
  Ret (mkC ord (S (c_count c)) (other :: c_stack c) ch).
(** Lines 129-141. *)
Definition order_factor (node : nat) (c : ctor) (k : nat) : outcome ctor :=
  fc <- rd (v_factors g) k ;;
  match fst fc with
  | [v0; v1] =>
      o0 <- rd (c_order c) v0 ;;
      c <- (if (v1 =? node) && is_none o0 then discover node v0 c else Ret c) ;;
      o1 <- rd (c_order c) v1 ;;
      if (v0 =? node) && is_none o1 then discover node v1 c else Ret c
  | _ => Ret c
  end.
(** Lines 125-143. *)
Fixpoint order_loop (fuel : nat) (c : ctor) : outcome ctor :=
  match fuel with
  | 0 => Diverge
  | S fuel =>
      match c_stack c with
      | [] => Ret c
      | node :: stack =>
          c <- foldM (order_factor node) (v_adj T g node) (mkC (c_order c) (c_count c) stack (c_children c)) ;;
          order_loop fuel c
      end
  end.
(** Lines 113-144; [left] is numberOfVariables() - varCount. *)
Fixpoint order_all (fuel left : nat) (roots : list nat) (c : ctor) : outcome ctor :=
  match left with
  | 0 => Ret c
  | S left' =>
      if length (v_labels g) <=? c_count c then Ret c
      else
        ' (roots, c) <-
          match roots with
          | r :: roots =>
              ord <- wr (c_order c) r (Some (c_count c)) ;;
              Ret (roots, mkC ord (S (c_count c)) (r :: c_stack c) (c_children c))
          | [] =>
              let v := length (v_labels g) - left in
              o <- rd (c_order c) v ;;
              if is_none o then
                ord <- wr (c_order c) v (Some (c_count c)) ;;
                Ret ([], mkC ord (S (c_count c)) (v :: c_stack c) (c_children c))
              else Ret ([], c)
          end ;;
        c <- order_loop fuel c ;;
        order_all fuel left' roots c
  end.
(** Lines 96-171.  An order that is still max() in line 169 is an access out of bounds; an entry of orderedNodes_ that
    is still max() afterwards would be used as an index in infer, line 192. *)
Definition dp_new (roots : list nat) : outcome dp :=
  let n := length (v_labels g) in
  c <- order_all (S n) n roots (mkC (repeat None n) 0 [] (repeat 0 n)) ;;
  let val := map (fun i => repeat None (nth i (v_labels g) 0)) (seq 0 n) in
  let st := map (fun i => repeat None (nth i (v_labels g) 0 * nth i (c_children c) 0)) (seq 0 n) in
  order <- mapM get (c_order c) ;;
  nodes <- foldM (fun l i => o <- rd order i ;; wr l o (Some i)) (seq 0 n) (repeat None n) ;;
  nodes <- mapM get nodes ;;
  Ret (mkDp order nodes val st false).

(** *** infer *)
Definition rd2 {A : Type} (b : list (list (option A))) (i j : nat) : outcome A :=
  row <- rd b i ;; o <- rd row j ;; get o.
Definition wr2 {A : Type} (b : list (list (option A))) (i j : nat) (a : A) : outcome (list (list (option A))) :=
  row <- rd b i ;; row <- wr row j (Some a) ;; wr b i row.

Notation buffers := (list (list (option T)) * list (list (option nat)))%type.

(** Lines 192-194. *)
Definition set_neutral (node : nat) (val : list (list (option T))) : outcome (list (list (option T))) :=
  foldM (fun val n => wr2 val node n (o_neutral OP)) (seq 0 (nth node (v_labels g) 0)) val.
(** Lines 201-206. *)
Definition unary (node : nat) (f : list nat -> T) (val : list (list (option T))) : outcome (list (list (option T))) :=
  foldM (fun val n => v <- rd2 val node n ;; wr2 val node n (o_op OP (f [n]) v)) (seq 0 (nth node (v_labels g) 0)) val.
(** The inner loops, lines 216-224 and 236-244: the best label of the child.  [f l c] is the factor's value. *)
Definition best_child (node2 : nat) (val : list (list (option T))) (f : nat -> T) (s : option nat) : outcome (T * option nat) :=
  foldM (fun (p : T * option nat) c =>
           w <- rd2 val node2 c ;;
           let v2 := o_op OP (f c) w in
           Ret (if a_bop ACC v2 (fst p) then (v2, Some c) else p))
        (seq 0 (nth node2 (v_labels g) 0)) (a_neutral ACC, s).
(** Lines 212-230 and 232-249; the label variable s outlives one label of [node]. *)
Definition message (node node2 cc : nat) (f : nat -> nat -> T) (b : buffers) : outcome buffers :=
  r <- foldM (fun (p : buffers * option nat) l =>
           let '(val, st, s) := p in
           ' (v, s) <- best_child node2 val (f l) s ;;
           s' <- get s ;;
           st <- wr2 st node (cc * nth node (v_labels g) 0 + l) s' ;;
           w <- rd2 val node l ;;
           val <- wr2 val node l (o_op OP v w) ;;
           Ret (val, st, s))
         (seq 0 (nth node (v_labels g) 0)) (b, None) ;;
  Ret (fst r).
(** Lines 198-254. *)
Definition infer_factor (order : list nat) (node : nat) (p : buffers * nat) (k : nat) : outcome (buffers * nat) :=
  fc <- rd (v_factors g) k ;;
  match fst fc with
  | [] => Ret p
  | [_] => val <- unary node (snd fc) (fst (fst p)) ;; Ret (val, snd (fst p), snd p)
  | [v0; v1] =>
      on <- rd order node ;; o0 <- rd order v0 ;; o1 <- rd order v1 ;;
      p <- (if (v0 =? node) && (on <? o1)
            then b <- message node v1 (snd p) (fun l c => snd fc [l; c]) (fst p) ;; Ret (b, S (snd p))
            else Ret p) ;;
      if (v1 =? node) && (on <? o0)
      then b <- message node v0 (snd p) (fun l c => snd fc [c; l]) (fst p) ;; Ret (b, S (snd p))
      else Ret p
  | _ => Throw
  end.
(** Lines 190-256. *)
Definition infer_node (order : list nat) (b : buffers) (node : nat) : outcome buffers :=
  val <- set_neutral node (fst b) ;;
  p <- foldM (infer_factor order node) (v_adj T g node) (val, snd b, 0) ;;
  Ret (fst p).
(** Lines 173-260. *)
Definition dp_infer (d : dp) : outcome dp :=
  let n := length (v_labels g) in
  b <- foldM (fun b i => node <- rd (d_nodes d) (n - i) ;; infer_node (d_order d) b node) (seq 1 n) (d_val d, d_st d) ;;
  Ret (mkDp (d_order d) (d_nodes d) (fst b) (snd b) true).

(** *** arg *)
(** Lines 294-306. *)
Definition arg_factor (d : dp) (node : nat) (p : list (option nat) * list nat * nat) (k : nat) : outcome (list (option nat) * list nat * nat) :=
  fc <- rd (v_factors g) k ;;
  match fst fc with
  | [v0; v1] =>
      on <- rd (d_order d) node ;; o0 <- rd (d_order d) v0 ;; o1 <- rd (d_order d) v1 ;;
      let assign other (p : list (option nat) * list nat * nat) :=
        let '(x, stack, cc) := p in
        a <- rd x node ;; l <- get a ;;
        s <- rd2 (d_st d) node (cc * nth node (v_labels g) 0 + l) ;;
        x <- wr x other (Some s) ;;
        Ret (x, other :: stack, S cc) in
      p <- (if (v1 =? node) && (on <? o0) then assign v0 p else Ret p) ;;
      if (v0 =? node) && (on <? o1) then assign v1 p else Ret p
  | _ => Ret p
  end.
(** Lines 289-308. *)
Fixpoint arg_loop (d : dp) (fuel : nat) (x : list (option nat)) (stack : list nat) : outcome (list (option nat)) :=
  match fuel with
  | 0 => Diverge
  | S fuel =>
      match stack with
      | [] => Ret x
      | node :: stack =>
          ' (x, stack, _) <- foldM (arg_factor d node) (v_adj T g node) (x, stack, 0) ;;
          arg_loop d fuel x stack
      end
  end.
(** Lines 279-285. *)
Definition best_label (d : dp) (var : nat) : outcome (T * option nat) :=
  foldM (fun (p : T * option nat) i =>
           w <- rd2 (d_val d) var i ;; Ret (if a_bop ACC w (fst p) then (w, Some i) else p))
        (seq 0 (nth var (v_labels g) 0)) (a_neutral ACC, None).
(** Lines 278-308, one variable. *)
Definition arg_var (d : dp) (fuel : nat) (x : list (option nat)) (var : nat) : outcome (list (option nat)) :=
  o <- rd x var ;;
  match o with
  | Some _ => Ret x
  | None =>
      ' (_, s) <- best_label d var ;;
      x <- wr x var s ;;
      arg_loop d fuel x [var]
  end.
(** Lines 262-316, n <= 1.  The result is the labeling and whether the status is NORMAL.  A label that is still max()
    is returned as it is. *)
Definition dp_arg (d : dp) : outcome (list (option nat) * bool) :=
  let n := length (v_labels g) in
  if d_started d then
    x <- foldM (arg_var d (S n)) (seq 0 n) (repeat None n) ;; Ret (x, true)
  else Ret (repeat (Some 0) n, false).

(** inference.hxx 399-418, value(), for an accumulation with an order. *)
Definition dp_value (d : dp) : outcome T :=
  ' (x, normal) <- dp_arg d ;; if normal then x <- mapM get x ;; v_evaluate T OP g x else Ret (a_neutral ACC).
End Dp.
Arguments mkDp {T}. Arguments d_order {T}. Arguments d_nodes {T}. Arguments d_val {T}. Arguments d_st {T}. Arguments d_started {T}.
