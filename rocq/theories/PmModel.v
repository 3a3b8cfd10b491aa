(** Model of inference/partition-move.hxx (PartitionMove, the Kernighan-Lin algorithm); values are exact rationals.
    Sets of variables are lists without repetition; [order] is the order in which a hash set is iterated, any function of the list.
    Simplified: a map neighbours_[v] is a list of its entries in the order of insertion (the sums over it do not depend on the order);
    constant_, numberOfTerminals_ and the number d of lines 391-395, which nothing reads, are left out; the visitor is EmptyVisitor. *)
From Coq Require Import QArith Qcanon.
From Verif Require Import Base Values GmView ConstraintModel DualDecompModel FunctionBaseModel.
Open Scope nat_scope.

Definition mem (v : nat) (s : list nat) : bool := existsb (Nat.eqb v) s.
Definition set_erase (v : nat) (s : list nat) : list nat := filter (fun u => negb (u =? v)) s.
Definition set_insert (v : nat) (s : list nat) : list nat := if mem v s then s else v :: s.
(** insertion into a std::set, which is iterated in increasing order *)
Fixpoint sorted_insert (k : nat) (l : list nat) : list nat :=
  match l with [] => [k] | a :: r => if k <? a then k :: a :: r else if k =? a then a :: r else a :: sorted_insert k r end.
(** m[v] = e *)
Fixpoint map_set (m : list (nat * nat)) (v e : nat) : list (nat * nat) :=
  match m with [] => [(v, e)] | (u, d) :: r => if u =? v then (u, e) :: r else (u, d) :: map_set r v e end.
(** vector::erase(begin() + k): k is a position of the vector *)
Fixpoint vec_erase {A : Type} (l : list A) (k : nat) : outcome (list A) :=
  match l, k with
  | [], _ => Undef
  | _ :: r, 0 => Ret r
  | a :: r, S k => r <- vec_erase r k ;; Ret (a :: r)
  end.
(** 1e-10 of line 467, 1e-8 of line 298, the bounds of lines 353 and 406 *)
Definition pm_eps10 : Qc := Q2Qc (1 # 10000000000).
Definition pm_eps8 : Qc := Q2Qc (1 # 100000000).
Definition pm_outer : nat := N.to_nat 100.
Definition pm_inner : nat := N.to_nat 1000.

Section Pm.
Variable order : list nat -> list nat.
Variable gm : gmv Qc.
Let numVar := length (v_labels gm).

Inductive ptype := INVALID | MC | MWC.
(** gm_[f].isPotts(): the member of FunctionBase *)
Definition pm_isPotts (fc : list nat * (list nat -> Qc)) : outcome bool :=
  sh <- mapM (rd (v_labels gm)) (fst fc) ;; isPotts Qc Qc_eq_bool (mkG sh (fun c => Ret (snd fc c))).
(** 134-152 *)
Fixpoint pm_scan (t : ptype) (fs : list (list nat * (list nat -> Qc))) : outcome ptype :=
  match fs with
  | [] => Ret t
  | fc :: fs =>
    match length (fst fc) with
    | 0 => pm_scan t fs
    | 1 => pm_scan MWC fs
    | 2 => b <- pm_isPotts fc ;; if b then pm_scan t fs else Ret INVALID
    | _ => Ret INVALID
    end
  end.
(** 124-157: numberOfLabels(0) is read first *)
Definition pm_check : outcome unit :=
  _ <- rd (v_labels gm) 0 ;;
  t <- pm_scan (if existsb (fun k => k <? numVar) (v_labels gm) then MWC else MC) (v_factors gm) ;;
  match t with MC => Ret tt | _ => Throw end.

(** gm_[f](cc) *)
Definition pm_at (fc : list nat * (list nat -> Qc)) (l : list nat) : outcome Qc :=
  sh <- mapM (rd (v_labels gm)) (fst fc) ;;
  if forallb (fun p => fst p <? snd p) (combine l sh) then Ret (snd fc l) else Undef.
(** members edgeWeight_ and neighbours_ *)
Record graph : Type := mkGraph { edgeWeight : list Qc; neighbours : list (list (nat * nat)) }.
(** 142: the number of factors of two variables *)
Definition pm_internal : nat := length (filter (fun fc => length (fst fc) =? 2) (v_factors gm)).
(** 166-186, one factor; the state: edgeWeight_, neighbours_, numberOfInternalEdges *)
Definition pm_edge (st : graph * nat) (fc : list nat * (list nat -> Qc)) : outcome (graph * nat) :=
  let '(G, k) := st in
  if length (fst fc) =? 0 then Ret (G, k)
  else if length (fst fc) =? 2 then
    v01 <- pm_at fc [0; 1] ;; v00 <- pm_at fc [0; 0] ;;
    w <- rd (edgeWeight G) k ;; ws <- wr (edgeWeight G) k (w + (v01 - v00))%Qc ;;
    u <- rd (fst fc) 0 ;; v <- rd (fst fc) 1 ;;
    mu <- rd (neighbours G) u ;; nb <- wr (neighbours G) u (map_set mu v k) ;;
    mv <- rd nb v ;; nb <- wr nb v (map_set mv u k) ;;
    Ret (mkGraph ws nb, S k)
  else Throw.
(** 160-186 *)
Definition pm_graph : outcome graph :=
  ' (G, _) <- foldM pm_edge (v_factors gm) (mkGraph (repeat 0%Qc pm_internal) (repeat [] numVar), 0) ;; Ret G.

Section WithGraph.
Variable G : graph.
(** 208-218, the while loop; the state: nodeList, states_, assigned.  Each variable enters nodeList at most once. *)
Definition pm_visit (p : nat) (st : list nat * list nat * list bool) (ne : nat * nat) : outcome (list nat * list nat * list bool) :=
  let '(q, states, assigned) := st in let '(node2, e) := ne in
  a <- rd assigned node2 ;;
  w <- rd (edgeWeight G) e ;;
  if negb a && Qc_lt 0 w then
    states <- wr states node2 p ;; assigned <- wr assigned node2 true ;; Ret (q ++ [node2], states, assigned)
  else Ret (q, states, assigned).
Fixpoint pm_flood (fuel p : nat) (q : list nat) (states : list nat) (assigned : list bool) : outcome (list nat * list bool) :=
  match q with
  | [] => Ret (states, assigned)
  | n :: q =>
    match fuel with
    | 0 => Diverge
    | S fuel =>
      m <- rd (neighbours G) n ;;
      ' (q, states, assigned) <- foldM (pm_visit p) m (q, states, assigned) ;;
      pm_flood fuel p q states assigned
    end
  end.
(** 189-222, states_ after the constructor (init is 2) *)
Definition pm_initial : outcome (list nat) :=
  ' (states, _, _) <- foldM (fun '(states, assigned, p) node =>
    a <- rd assigned node ;;
    if a : bool then Ret (states, assigned, p)
    else
      states <- wr states node p ;; assigned <- wr assigned node true ;;
      ' (states, assigned) <- pm_flood (S numVar) p [node] states assigned ;;
      Ret (states, assigned, S p))
    (seq 0 numVar) (repeat 0 numVar, repeat false numVar, 0) ;;
  Ret states.

(** 356-372 and 373-389: D[node] for a node of [mine]; the other set is [other] *)
Definition pm_gain (mine other : list nat) (node : nat) : outcome Qc :=
  m <- rd (neighbours G) node ;;
  ' (E_a, I_a) <- foldM (fun '(E_a, I_a) '(node2, e) =>
    weight <- rd (edgeWeight G) e ;;
    Ret (if mem node2 mine then (E_a, (I_a + weight)%Qc) else if mem node2 other then ((E_a + weight)%Qc, I_a) else (E_a, I_a)))
    m (0%Qc, 0%Qc) ;;
  Ret (- (E_a - I_a))%Qc.
(** 354-389 *)
Definition pm_gains (set0 set1 : list nat) : outcome (list Qc) :=
  D <- foldM (fun D v => d <- pm_gain set0 set1 v ;; wr D v d) (order set0) (repeat 0%Qc numVar) ;;
  foldM (fun D v => d <- pm_gain set1 set0 v ;; wr D v d) (order set1) D.
(** 411-422 and 424-435: improve and node; None is infinity with moved = false *)
Definition pm_select (D : list Qc) (isMoved : list bool) (s : list nat) (b : option (Qc * nat)) : outcome (option (Qc * nat)) :=
  foldM (fun b v =>
    mv <- rd isMoved v ;; d <- rd D v ;;
    Ret (if mv : bool then b else match b with None => Some (d, v) | Some (i, _) => if Qc_lt d i then Some (d, v) else b end))
  (order s) b.
(** 398-403: D, isMovedNode, nodeSequence, improveSumSequence, bestMove (improveSequence is never read) *)
Record kl : Type := mkKl { kl_D : list Qc; kl_moved : list bool; kl_nodes : list nat; kl_sums : list Qc; kl_best : nat }.
(** 453-462 *)
Definition pm_update (mySet : list nat) (D : list Qc) (ne : nat * nat) : outcome (list Qc) :=
  let '(node2, e) := ne in
  weight <- rd (edgeWeight G) e ;; d <- rd D node2 ;;
  wr D node2 (if mem node2 mySet then (d - (1 + 1) * weight)%Qc else (d + (1 + 1) * weight)%Qc).
(** 443-463, the move of one node *)
Definition pm_step (set0 set1 : list nat) (s : kl) (improve : Qc) (node : nat) : outcome kl :=
  isMoved <- wr (kl_moved s) node true ;;
  last <- rd (kl_sums s) (length (kl_sums s) - 1) ;;
  let sum := (last + improve)%Qc in
  let sums := kl_sums s ++ [sum] in
  b <- rd sums (kl_best s) ;;
  let best := if Qc_lt sum b then length sums - 1 else kl_best s in
  m <- rd (neighbours G) node ;;
  D <- foldM (pm_update (if mem node set0 then set0 else set1)) m (kl_D s) ;;
  Ret (mkKl D isMoved (kl_nodes s ++ [node]) sums best).
(** 406-464 *)
Fixpoint pm_sequence (k : nat) (set0 set1 : list nat) (s : kl) : outcome kl :=
  match k with
  | 0 => Ret s
  | S k =>
    b <- pm_select (kl_D s) (kl_moved s) set0 None ;;
    b <- pm_select (kl_D s) (kl_moved s) set1 b ;;
    match b with
    | None => Ret s
    | Some (improve, node) => s <- pm_step set0 set1 s improve node ;; pm_sequence k set0 set1 s
    end
  end.
(** 471-480, one move *)
Definition pm_move (st : list nat * list nat) (node : nat) : list nat * list nat :=
  let '(set0, set1) := st in
  if mem node set0 then (set_erase node set0, set_insert node set1) else (set_insert node set0, set_erase node set1).
(** 344-485, solveBinaryKL: the improvement and the two sets *)
Fixpoint pm_solve (k : nat) (improvement : Qc) (set0 set1 : list nat) : outcome (Qc * list nat * list nat) :=
  match k with
  | 0 => Ret (improvement, set0, set1)
  | S k =>
    D <- pm_gains set0 set1 ;;
    s <- pm_sequence pm_inner set0 set1 (mkKl D (repeat false numVar) [] [0%Qc] 0) ;;
    b <- rd (kl_sums s) (kl_best s) ;;
    if Qc_lt (- pm_eps10)%Qc b then Ret (improvement, set0, set1)
    else
      nodes <- mapM (rd (kl_nodes s)) (seq 0 (kl_best s)) ;;
      let '(set0, set1) := fold_left pm_move nodes (set0, set1) in
      pm_solve k (improvement + b)%Qc set0 set1
  end.
(** 279-289, the sets with a larger index that touch set [part0] *)
Definition pm_touching (states : list nat) (part0 : nat) (set0 : list nat) : outcome (list nat) :=
  foldM (fun l node =>
    m <- rd (neighbours G) node ;;
    foldM (fun l '(node2, _) => p <- rd states node2 ;; Ret (if part0 <? p then sorted_insert p l else l)) m l)
  (order set0) [].
(** 290-301, one pair; the state: partitionSets, change *)
Definition pm_pair (part0 : nat) (st : list (list nat) * bool) (part1 : nat) : outcome (list (list nat) * bool) :=
  let '(sets, change) := st in
  set0 <- rd sets part0 ;; set1 <- rd sets part1 ;;
  if (length set0 =? 0) || (length set1 =? 0) then Ret (sets, change)
  else
    ' (improvement, set0, set1) <- pm_solve pm_outer 0 set0 set1 ;;
    sets <- wr sets part0 set0 ;; sets <- wr sets part1 set1 ;;
    Ret (sets, change || Qc_lt improvement (- pm_eps8)%Qc).
(** 277-302 *)
Definition pm_pairs (states : list nat) (np : nat) (sets : list (list nat)) : outcome (list (list nat) * bool) :=
  foldM (fun st part0 =>
    set0 <- rd (fst st) part0 ;; ts <- pm_touching states part0 set0 ;; foldM (pm_pair part0) ts st)
  (seq 0 np) (sets, false).
(** 304-322, one set; the state: partitionSets, pruneSets, change *)
Definition pm_split (st : list (list nat) * list nat * bool) (part0 : nat) : outcome (list (list nat) * list nat * bool) :=
  let '(sets, prune, change) := st in
  set0 <- rd sets part0 ;;
  if length set0 =? 0 then Ret (sets, prune ++ [part0], change)
  else if 1 <? length set0 then
    ' (_, set0, set1) <- pm_solve pm_outer 0 set0 [] ;;
    sets <- wr sets part0 set0 ;;
    Ret (if 0 <? length set1 then (sets ++ [set1], prune, true) else (sets, prune, change))
  else Ret (sets, prune, change).
(** 325-328: from the last to the first *)
Definition pm_prune (sets : list (list nat)) (prune : list nat) : outcome (list (list nat)) := foldM vec_erase (rev prune) sets.
(** 330-335 *)
Definition pm_relabel (sets : list (list nat)) (states : list nat) : outcome (list nat) :=
  foldM (fun states part => s <- rd sets part ;; foldM (fun states v => wr states v part) (order s) states) (seq 0 (length sets)) states.
(** 272-339, one round: partitionSets, states_, change *)
Definition pm_round (sets : list (list nat)) (states : list nat) : outcome (list (list nat) * list nat * bool) :=
  let np := length sets in
  ' (sets, change) <- pm_pairs states np sets ;;
  ' (sets, prune, change) <- foldM pm_split (seq 0 np) (sets, [], change) ;;
  sets <- pm_prune sets prune ;;
  states <- pm_relabel sets states ;;
  Ret (sets, states, change).
(** 272-339, while(change) *)
Fixpoint pm_loop (fuel : nat) (sets : list (list nat)) (states : list nat) : outcome (list nat) :=
  match fuel with
  | 0 => Diverge
  | S fuel =>
    ' (sets, states, change) <- pm_round sets states ;;
    if change : bool then pm_loop fuel sets states else Ret states
  end.
(** 259-269, the sets of the current labels *)
Definition pm_sets (states : list nat) : outcome (list (list nat)) :=
  let np := fold_left (fun k s => if k <? s + 1 then s + 1 else k) states 0 in
  foldM (fun sets i => k <- rd states i ;; s <- rd sets k ;; wr sets k (set_insert i s)) (seq 0 (length states)) (repeat [] np).
(** 234-342, infer() *)
Definition pm_infer (fuel : nat) (states : list nat) : outcome (list nat) :=
  sets <- pm_sets states ;; pm_loop fuel sets states.
End WithGraph.
(** 112-231, the constructor: the graph and states_ *)
Definition pm_new : outcome (graph * list nat) :=
  _ <- pm_check ;; G <- pm_graph ;; states <- pm_initial G ;; Ret (G, states).
(** 488-505, arg (for N = 1) *)
Definition pm_arg (states : list nat) : outcome (list nat) := mapM (rd states) (seq 0 numVar).
(** constructor, infer(), arg() *)
Definition pm_run (fuel : nat) : outcome (list nat) :=
  ' (G, states) <- pm_new ;; states <- pm_infer G fuel states ;; pm_arg states.
End Pm.
