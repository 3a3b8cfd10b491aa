(** A* search: include/opengm/inference/astar.hxx.

    Simplifications: OPENGM_ASSERT is not modelled; integer and size conversions do not overflow; visitors are an oracle that
    says for each call whether inference stops.  std::make_heap, push_heap and pop_heap are represented by their contract: the
    array is the list of its entries, and an oracle [pick], given the number of changes of the array so far, says which entry is
    in front; the theorems hold for every oracle that picks an entry that no other entry beats.  The three argument form of
    ACC::op is written with the two argument form, which selects an equal value. *)
From Verif Require Import Base Values ShapeSpec GmView.

Section AStar.
Variable T : Type.
Variable OP : oper T.
Variable ACC : accum T.
Variable zero : T.
Variable g : gmv T.
Notation op := (o_op OP).
Notation one := (o_neutral OP).
Notation factor := (list nat * (list nat -> T))%type.

(** Lines 26-29, AStarNode. *)
Record anode : Type := mkANode { an_conf : list nat; an_value : T }.

Inductive heuristic := DEFAULTHEURISTIC | FASTHEURISTIC | STANDARDHEURISTIC.
(** Lines 99-144, Parameter. *)
Record aparam : Type := mkAParam { p_maxHeapSize : nat; p_numberOfOpt : nat; p_objectiveBound : T; p_heuristic : heuristic;
  p_nodeOrder : list nat; p_treeFactorIds : list nat }.

(** Lines 158-172: the members; isTreeFactor_ and optimizedFactor_ have one entry for each factor, the latter without
    entry where the factor has fewer than two variables. *)
Record astar : Type := mkAStar { as_param : aparam; as_array : list anode; as_isTreeFactor : list bool;
  as_optimizedFactor : list (option (nat * list T)); as_optConf : list (list nat); as_belowBound : T; as_time : nat }.

(** ** The constructor, lines 190-283 *)
Definition v_factorOrder : nat := fold_left (fun m (fc : factor) => Nat.max m (length (fst fc))) (v_factors g) 0.
(** std::sort on pairs: the ascending rearrangement, here by insertion. *)
Definition pair_leb (a b : nat * nat) : bool := (fst a <? fst b) || ((fst a =? fst b) && (snd a <=? snd b)).
Fixpoint pair_ins (x : nat * nat) (l : list (nat * nat)) : list (nat * nat) :=
  match l with [] => [x] | y :: t => if pair_leb x y then x :: l else y :: pair_ins x t end.
Definition pair_sort (l : list (nat * nat)) : list (nat * nat) := fold_right pair_ins [] l.
(** Lines 216-228. *)
Definition defaultOrder : list nat := map snd (rev (pair_sort (map (fun i => (length (v_adj T g i), i)) (seq 0 (length (v_labels g)))))).
(** Lines 237-245; [back] is the last entry of the order, read for factors with two variables only. *)
Definition defaultTree (order : list nat) : outcome (list nat) :=
  foldM (fun ids i =>
    ' (vis, _) <- rd (v_factors g) i ;;
    match vis with
    | [a; b] => back <- rd order (length order - 1) ;; Ret (if (a =? back) || (b =? back) then ids ++ [i] else ids)
    | _ => Ret ids
    end) (seq 0 (length (v_factors g))) [].
(** Lines 248-259: the factor accumulated over all variables but the first one (see C38); one value for each label of that. *)
Definition optimize (fc : factor) : outcome (option (nat * list T)) :=
  match fst fc with
  | v :: w :: vis =>
      n <- rd (v_labels g) v ;; sh <- mapM (rd (v_labels g)) (w :: vis) ;;
      Ret (Some (v, map (fun j => fold_left (fun m k => a_op ACC (snd fc (j :: coord_of sh k)) m) (seq 0 (size_of sh)) (a_neutral ACC)) (seq 0 n)))
  | _ => Ret None
  end.
Definition astar_new (para : aparam) : outcome astar :=
  let h := match p_heuristic para with
           | DEFAULTHEURISTIC => if v_factorOrder <=? 2 then FASTHEURISTIC else STANDARDHEURISTIC
           | h => h end in
  let numNodes := length (v_labels g) in
  let order := if length (p_nodeOrder para) =? 0 then defaultOrder else p_nodeOrder para in
  if negb (length order =? numNodes) then Throw
  else
    tree <- (if length (p_treeFactorIds para) =? 0 then defaultTree order else Ret (p_treeFactorIds para)) ;;
    opt <- mapM optimize (v_factors g) ;;
    vs <- mapM (rd (v_factors g)) tree ;;
    if (match h with FASTHEURISTIC => existsb (fun fc : factor => 2 <? length (fst fc)) vs | _ => false end) then Throw
    else
      isTree <- foldM (fun l i => wr l i true) tree (repeat false (length (v_factors g))) ;;
      Ret (mkAStar (mkAParam (p_maxHeapSize para) (p_numberOfOpt para) (p_objectiveBound para) h order tree)
                   [mkANode [] zero] isTree opt [] (a_ineutral ACC) 0).

(** ** fastHeuristic, lines 519-706 *)
(** std::vector::resize(1). *)
Definition resize1 (l : list T) : list T := match l with [] => [zero] | a :: _ => [a] end.
(** nodeEnergy, nodeDegree and factorList. *)
Record fheur : Type := mkFheur { fh_energy : list (list T); fh_degree : list nat; fh_list : list nat }.
(** OperatorType::op(value, nodeEnergy[v][j]). *)
Definition bump (e : list (list T)) (v j : nat) (x : T) : outcome (list (list T)) :=
  row <- rd e v ;; y <- rd row j ;; row <- wr row j (op x y) ;; wr e v row.
(** nodeEnergy[v].resize(1). *)
Definition shrink (e : list (list T)) (v : nat) : outcome (list (list T)) := row <- rd e v ;; wr e v (resize1 row).
(** The loop over all labels of v. *)
Definition bump_all (e : list (list T)) (v : nat) (F : nat -> outcome T) : outcome (list (list T)) :=
  n <- rd (v_labels g) v ;; foldM (fun e j => x <- F j ;; bump e v j x) (seq 0 n) e.
(** optimizedFactor_[i](j). *)
Definition optimized (s : astar) (i j : nat) : outcome T :=
  o <- rd (as_optimizedFactor s) i ;; match o with Some (_, t) => rd t j | None => Undef end.
(** Lines 540-630: one factor.  The labels already chosen are given by position of the variable, None where nodeLabel is -1. *)
Definition fh_factor (s : astar) (nodeLabel : list (option nat)) (h : fheur) (i : nat) : outcome fheur :=
  ' (vis, F) <- rd (v_factors g) i ;;
  let e := fh_energy h in
  match vis with
  | [] => Ret h
  | [v] =>
      l <- rd nodeLabel v ;;
      e <- match l with Some a => e <- shrink e v ;; bump e v 0 (F [a]) | None => bump_all e v (fun j => Ret (F [j])) end ;;
      Ret (mkFheur e (fh_degree h) (fh_list h))
  | [v; w] =>
      l1 <- rd nodeLabel v ;; l2 <- rd nodeLabel w ;;
      match l1, l2 with
      | Some a, Some b => e <- shrink e v ;; e <- bump e v 0 (F [a; b]) ;; Ret (mkFheur e (fh_degree h) (fh_list h))
      | Some a, None => e <- bump_all e w (fun j => Ret (F [a; j])) ;; Ret (mkFheur e (fh_degree h) (fh_list h))
      | None, Some b => e <- bump_all e v (fun j => Ret (F [j; b])) ;; Ret (mkFheur e (fh_degree h) (fh_list h))
      | None, None =>
          t <- rd (as_isTreeFactor s) i ;;
          if t : bool then
            d1 <- rd (fh_degree h) v ;; d <- wr (fh_degree h) v (S d1) ;; d2 <- rd d w ;; d <- wr d w (S d2) ;;
            Ret (mkFheur e d (i :: fh_list h))
          else e <- bump_all e v (optimized s i) ;; Ret (mkFheur e (fh_degree h) (fh_list h))
      end
  | v :: _ =>
      ls <- mapM (rd nodeLabel) vis ;;
      (* state is never set where the label is known: it keeps its initial zeros *)
      if forallb (fun l : option nat => match l with Some _ => true | None => false end) ls then
        row <- rd e v ;; row <- wr row 0 (F (repeat 0 (length vis))) ;; e <- wr e v row ;; Ret (mkFheur e (fh_degree h) (fh_list h))
      else e <- bump_all e v (optimized s i) ;; Ret (mkFheur e (fh_degree h) (fh_list h))
  end.
(** Lines 644-662 and 663-682: node a of degree one passes its energy to node b and leaves; F j k is the value of the factor
    for label j of a and k of b. *)
Definition pass (h : fheur) (a b : nat) (F : nat -> nat -> T) : outcome fheur :=
  na <- rd (v_labels g) a ;;
  e <- bump_all (fh_energy h) b (fun k =>
         ra <- rd (fh_energy h) a ;;
         foldM (fun m j => y <- rd ra j ;; Ret (a_op ACC (op (F j k) y) m)) (seq 0 na) (a_neutral ACC)) ;;
  da <- rd (fh_degree h) a ;; d <- wr (fh_degree h) a (da - 1) ;; db <- rd d b ;; d <- wr d b (db - 1) ;;
  e <- shrink e a ;; e <- wr e a [one] ;;
  Ret (mkFheur e d (fh_list h)).
(** Lines 632-686. *)
Fixpoint fh_loop (fuel : nat) (h : fheur) : outcome fheur :=
  match fuel with
  | 0 => Diverge
  | S fuel =>
      match fh_list h with
      | [] => Ret h
      | id :: rest =>
          let h := mkFheur (fh_energy h) (fh_degree h) rest in
          ' (vis, F) <- rd (v_factors g) id ;; a <- rd vis 0 ;; b <- rd vis 1 ;;
          d1 <- rd (fh_degree h) a ;; d2 <- rd (fh_degree h) b ;;
          if d1 =? 1 then h <- pass h a b (fun j k => F [j; k]) ;; fh_loop fuel h
          else if d2 =? 1 then h <- pass h b a (fun j k => F [k; j]) ;; fh_loop fuel h
          else fh_loop fuel (mkFheur (fh_energy h) (fh_degree h) (rest ++ [id]))
      end
  end.
Definition label_of (order conf : list nat) (v : nat) : option nat :=
  fold_left (fun l p => if fst p =? v then Some (snd p) else l) (combine order conf) None.
Definition fastHeuristic (fuel : nat) (s : astar) (conf : list nat) : outcome (list T) :=
  let order := p_nodeOrder (as_param s) in
  let n := length (v_labels g) in
  next <- rd order (length conf) ;;
  let nodeLabel := map (label_of order conf) (seq 0 n) in
  h <- foldM (fh_factor s nodeLabel) (seq 0 (length (v_factors g)))
         (mkFheur (map (fun k => repeat one k) (v_labels g)) (repeat 0 n) []) ;;
  dn <- rd (fh_degree h) next ;; d <- wr (fh_degree h) next (dn + n) ;;
  h <- fh_loop fuel (mkFheur (fh_energy h) d (fh_list h)) ;;
  result <- foldM (fun r i => if i =? next then Ret r else row <- rd (fh_energy h) i ;; Ret (op (fold_left (fun m y => a_op ACC y m) row (a_neutral ACC)) r))
              (seq 0 n) one ;;
  row <- rd (fh_energy h) next ;;
  Ret (map (fun y => op y result) row).

(** ** The other heuristic, lines 399-501 *)
(** bp.infer() and bp.constrainedOptimum for one variable and one label, on a model without cycles: a parameter (C47 is about
    it); it returns a labeling of the model. *)
Variable constrainedOptimum : gmv T -> nat -> nat -> outcome (list nat).
(** Lines 407-427: the numbers of the variables without label in the new model, 0 for the others, and their label counts. *)
Definition varMap (nodeLabel : list (option nat)) : list nat * list nat :=
  fold_left (fun (st : list nat * list nat) v =>
      match nth v nodeLabel None with
      | Some _ => (fst st ++ [0], snd st)
      | None => (fst st ++ [length (snd st)], snd st ++ [nth v (v_labels g) 0])
      end) (seq 0 (length nodeLabel)) ([], []).
(** The view of a factor with fixed variables: [ls] has one label or None for each variable of the factor. *)
Fixpoint merge (ls : list (option nat)) (c : list nat) : list nat :=
  match ls with [] => [] | Some a :: ls => a :: merge ls c | None :: ls => hd 0 c :: merge ls (tl c) end.
(** Lines 430-473. The factor for an optimized factor is read at labels of another variable if its own variable is fixed; a
    label beyond its table is read as [zero]. *)
Definition sub_factor (s : astar) (nodeLabel : list (option nat)) (map' : list nat) (st : list factor * T) (i : nat) : outcome (list factor * T) :=
  ' (vis, F) <- rd (v_factors g) i ;;
  ls <- mapM (rd nodeLabel) vis ;;
  ms <- mapM (rd map') (map fst (filter (fun p : nat * option nat => match snd p with None => true | _ => false end) (combine vis ls))) ;;
  match ms with
  | [] => Ret (fst st, op (F (merge ls [])) (snd st))
  | _ =>
      t <- rd (as_isTreeFactor s) i ;;
      if (length ms <? 2) || t then Ret (fst st ++ [(ms, fun c => F (merge ls c))], snd st)
      else
        o <- rd (as_optimizedFactor s) i ;;
        match o with
        | Some (v, t) => m <- rd map' v ;; Ret (fst st ++ [([m], fun c => nth (hd 0 c) t zero)], snd st)
        | None => Undef
        end
  end.
Definition sub_model (s : astar) (conf : list nat) : outcome (gmv T * list nat) :=
  let nodeLabel := map (label_of (p_nodeOrder (as_param s)) conf) (seq 0 (length (v_labels g))) in
  let vm := varMap nodeLabel in
  ' (fs, constant) <- foldM (sub_factor s nodeLabel (fst vm)) (seq 0 (length (v_factors g))) ([], one) ;;
  Ret (mkGmv (snd vm) (fs ++ [([], fun _ => constant)]), fst vm).
Definition standardHeuristic (s : astar) (conf : list nat) : outcome (list T) :=
  next <- rd (p_nodeOrder (as_param s)) (length conf) ;;
  ' (m, map') <- sub_model s conf ;;
  v <- rd map' next ;; n <- rd (v_labels g) next ;;
  mapM (fun i => x <- constrainedOptimum m v i ;; v_evaluate T OP m x) (seq 0 n).

(** ** The search *)
Variable pick : nat -> list anode -> nat.
Variable stop : nat -> bool.
(** array_.front(). *)
Definition front (s : astar) : outcome anode := rd (as_array s) (pick (as_time s) (as_array s)).
(** pop_heap and pop_back. *)
Definition remove_at {A : Type} (k : nat) (l : list A) : list A := firstn k l ++ skipn (S k) l.
Definition with_array (s : astar) (l : list anode) : astar :=
  mkAStar (as_param s) l (as_isTreeFactor s) (as_optimizedFactor s) (as_optConf s) (as_belowBound s) (S (as_time s)).
Definition with_bound (s : astar) (b : T) : astar :=
  mkAStar (as_param s) (as_array s) (as_isTreeFactor s) (as_optimizedFactor s) (as_optConf s) b (as_time s).
Definition with_opt (s : astar) (o : list (list nat)) : astar :=
  mkAStar (as_param s) (as_array s) (as_isTreeFactor s) (as_optimizedFactor s) o (as_belowBound s) (as_time s).
Definition pop (s : astar) : astar := with_array s (remove_at (pick (as_time s) (as_array s)) (as_array s)).
(** partial_sort and resize: the best entries, here by insertion; among equal ones the first. *)
Fixpoint node_ins (x : anode) (l : list anode) : list anode :=
  match l with [] => [x] | y :: t => if a_bop ACC (an_value y) (an_value x) then y :: node_ins x t else x :: l end.
Definition keep_best (k : nat) (l : list anode) : list anode := firstn k (fold_right node_ins [] l).
(** Lines 399 and 502. *)
Definition heuristic_of (fuel : nat) (s : astar) (conf : list nat) : outcome (list T) :=
  match p_heuristic (as_param s) with
  | STANDARDHEURISTIC => standardHeuristic s conf
  | FASTHEURISTIC => fastHeuristic fuel s conf
  | DEFAULTHEURISTIC => Ret []
  end.
(** Lines 383-398 and 502-517, expand; array_.size() > maxHeapSize_ * 0.99 without rounding. *)
Definition expand (fuel : nat) (s : astar) : outcome astar :=
  let max := p_maxHeapSize (as_param s) in
  let s := if 99 * max <? 100 * length (as_array s) then with_array s (keep_best (max / 2) (as_array s)) else s in
  a <- front s ;;
  let s := pop s in
  bound <- heuristic_of fuel s (an_conf a) ;;
  next <- rd (p_nodeOrder (as_param s)) (length (an_conf a)) ;; n <- rd (v_labels g) next ;;
  foldM (fun s i => b <- rd bound i ;; Ret (with_array s (as_array s ++ [mkANode (an_conf a ++ [i]) b]))) (seq 0 n) s.
(** Lines 320-325; the number of calls of the visitor so far and exitFlag go along. *)
Fixpoint descend (fuel : nat) (s : astar) (calls : nat) (exit : bool) : outcome (astar * nat * bool) :=
  a <- front s ;;
  if negb (length (an_conf a) <? length (v_labels g)) || exit then Ret (s, calls, exit)
  else
    match fuel with
    | 0 => Diverge
    | S fuel' =>
        s <- expand fuel s ;; b <- front s ;;
        descend fuel' (with_bound s (an_value b)) (S calls) (stop calls)
    end.
(** Lines 329-332. *)
Definition labels_of (order conf : list nat) : outcome (list nat) :=
  foldM (fun x k => v <- rd order k ;; l <- rd conf k ;; wr x v l) (seq 0 (length (v_labels g))) (repeat 0 (length (v_labels g))).
Inductive termination := NORMAL | UNKNOWN.
(** Lines 315-345. *)
Fixpoint search (fuel : nat) (s : astar) (calls : nat) (exit : bool) : outcome (astar * termination) :=
  match fuel with
  | 0 => Diverge
  | S fuel' =>
      if (length (as_array s) =? 0) || exit then Ret (s, UNKNOWN)
      else if p_numberOfOpt (as_param s) =? length (as_optConf s) then Ret (s, NORMAL)
      else
        ' (s, calls, exit) <- descend fuel s calls exit ;;
        a <- front s ;;
        if length (v_labels g) <=? length (an_conf a) then
          let s := with_bound s (an_value a) in
          x <- labels_of (p_nodeOrder (as_param s)) (an_conf a) ;;
          let s := with_opt s (as_optConf s ++ [x]) in
          if a_bop ACC (p_objectiveBound (as_param s)) (an_value a) then Ret (s, NORMAL)
          else search fuel' (pop s) (S calls) exit
        else search fuel' (pop s) calls exit
  end.
(** Lines 308-314. *)
Definition astar_infer (fuel : nat) (s : astar) : outcome (astar * termination) := search fuel (with_opt s []) 0 false.
(** Lines 347-369 and 150. *)
Definition astar_value (s : astar) : outcome T := match as_optConf s with x :: _ => v_evaluate T OP g x | [] => Ret (a_neutral ACC) end.
(** [conf] is the vector that is passed in; n = 0 reads before the beginning of optConf_. *)
Definition astar_arg (s : astar) (conf : list nat) (n : nat) : outcome (list nat * termination) :=
  if length (as_optConf s) <? n then Ret (firstn (length (v_labels g)) conf ++ repeat 0 (length (v_labels g) - length conf), UNKNOWN)
  else match n with 0 => Undef | S k => x <- rd (as_optConf s) k ;; Ret (x, NORMAL) end.
Definition astar_bound (s : astar) : T := as_belowBound s.
End AStar.
Arguments mkANode {T}. Arguments an_conf {T}. Arguments an_value {T}. Arguments mkAParam {T}. Arguments p_maxHeapSize {T}. Arguments p_numberOfOpt {T}.
Arguments p_objectiveBound {T}. Arguments p_heuristic {T}. Arguments p_nodeOrder {T}. Arguments p_treeFactorIds {T}.
Arguments mkAStar {T}. Arguments as_param {T}. Arguments as_array {T}. Arguments as_isTreeFactor {T}. Arguments as_optimizedFactor {T}. Arguments as_optConf {T}.
Arguments as_belowBound {T}. Arguments as_time {T}. Arguments mkFheur {T}. Arguments fh_energy {T}. Arguments fh_degree {T}. Arguments fh_list {T}.
