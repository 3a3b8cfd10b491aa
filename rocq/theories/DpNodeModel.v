(** DynamicProgramming::getNodeInfo: include/opengm/inference/dynamicprogramming.hxx 318-366, and its use on a tentacle:
    include/opengm/graphicalmodel/graphicalmodel_manipulator.hxx 706-768.

    Simplified as in DpModel.v.  The vectors nodes and substates[i], to which the function appends, are lists. *)
From Verif Require Import Base Values GmView DpModel.

Section Node.
Variable T : Type.
Variable OP : oper T.
Variable ACC : accum T.
Variable g : gmv T.

(** The local variables: arg, nodeList (its back is the head), substates[i] and nodes. *)
Record walk : Type := mkWalk { w_arg : list (option nat); w_stack : list nat; w_sub : list nat; w_nodes : list nat }.

(** Lines 343-349 and 352-358. *)
Definition info_assign (d : dp T) (first : bool) (node other : nat) (p : walk * nat) : outcome (walk * nat) :=
  let '(w, cc) := p in
  a <- rd (w_arg w) node ;; l <- get a ;;
  s <- rd2 (d_st d) node (cc * nth node (v_labels g) 0 + l) ;;
  x <- wr (w_arg w) other (Some s) ;;
  Ret (mkWalk x (other :: w_stack w) (w_sub w ++ [s]) (if first then w_nodes w ++ [other] else w_nodes w), S cc).
(** Lines 339-361. *)
Definition info_factor (d : dp T) (first : bool) (node : nat) (p : walk * nat) (k : nat) : outcome (walk * nat) :=
  fc <- rd (v_factors g) k ;;
  match fst fc with
  | [v0; v1] =>
      on <- rd (d_order d) node ;; o0 <- rd (d_order d) v0 ;; o1 <- rd (d_order d) v1 ;;
      p <- (if (v1 =? node) && (on <? o0) then info_assign d first node v0 p else Ret p) ;;
      if (v0 =? node) && (on <? o1) then info_assign d first node v1 p else Ret p
  | _ => Ret p
  end.
(** Lines 335-362. *)
Fixpoint info_loop (d : dp T) (first : bool) (fuel : nat) (w : walk) : outcome walk :=
  match fuel with
  | 0 => Diverge
  | S fuel =>
      match w_stack w with
      | [] => Ret w
      | node :: stack =>
          ' (w, _) <- foldM (info_factor d first node) (v_adj T g node) (mkWalk (w_arg w) stack (w_sub w) (w_nodes w), 0) ;;
          info_loop d first fuel w
      end
  end.
(** Lines 327-363, one label; nodes is filled in the first round. *)
Definition info_label (d : dp T) (node : nat) (acc : list T * list (list nat) * list nat) (i : nat) : outcome (list T * list (list nat) * list nat) :=
  let '(values, substates, nodes) := acc in
  x <- wr (repeat None (length (v_labels g))) node (Some i) ;;
  v <- rd2 (d_val d) node i ;;
  w <- info_loop d (i =? 0) (S (length (v_labels g))) (mkWalk x [node] [] nodes) ;;
  Ret (values ++ [v], substates ++ [w_sub w], w_nodes w).
(** Lines 318-366: values, substates and nodes. *)
Definition getNodeInfo (d : dp T) (node : nat) : outcome (list T * list (list nat) * list nat) :=
  L <- rd (v_labels g) node ;; foldM (info_label d node) (seq 0 L) ([], [], []).

(** graphicalmodel_manipulator.hxx 723-732: orderedSubstates, one label. *)
Definition order_states (root : nat) (nodes : list nat) (i : nat) (sub : list nat) : outcome (list nat) :=
  o <- wr (repeat 0 (length (v_labels g))) root i ;;
  foldM (fun o k => v <- rd nodes k ;; a <- rd sub k ;; wr o v a) (seq 0 (length sub)) o.
(** Lines 711-741: a tentacle with a root. *)
Definition dp_rooted (root : nat) : outcome (list T * list (list nat)) :=
  d <- dp_new T g [root] ;;
  d <- dp_infer T OP ACC g d ;;
  ' (values, substates, nodes) <- getNodeInfo d root ;;
  cands <- mapM (fun i => sub <- rd substates i ;; order_states root nodes i sub) (seq 0 (length substates)) ;;
  Ret (values, cands).
(** Lines 746-768: a tentacle without root.  A label that is max() would be stored. *)
Definition dp_free : outcome (list nat) :=
  d <- dp_new T g [0] ;;
  d <- dp_infer T OP ACC g d ;;
  ' (x, _) <- dp_arg T ACC g d ;;
  mapM get x.
End Node.

(** graphviews/factorgraph.hxx 712-722, maxFactorOrder(): the largest number of variables of a factor. *)
Definition maxFactorOrder {T : Type} (g : gmv T) : nat := fold_left (fun m fc => Nat.max m (length (fst fc))) (v_factors g) 0.
(** Lines 706-829: dynamic programming, or belief propagation ([bp_rooted], [bp_free]) if a factor of the tentacle has more
    than two variables. *)
Definition tent_rooted {T : Type} (OP : oper T) (ACC : accum T) (bp_rooted : gmv T -> nat -> outcome (list T * list (list nat)))
    (gmt : gmv T) (root : nat) : outcome (list T * list (list nat)) :=
  if maxFactorOrder gmt <=? 2 then dp_rooted T OP ACC gmt root else bp_rooted gmt root.
Definition tent_free {T : Type} (OP : oper T) (ACC : accum T) (bp_free : gmv T -> outcome (list nat)) (gmt : gmv T) : outcome (list nat) :=
  if maxFactorOrder gmt <=? 2 then dp_free T OP ACC gmt else bp_free gmt.
