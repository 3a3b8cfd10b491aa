(** What is expected of A* search. *)
From Verif Require Import Base Values GmView ShapeSpec GmViewSpec FactorGraphSpec MpModel MpSpec ModeSpec AStarModel.
From Coq Require Import Permutation.

(** Values (for minimal sums: the finite numbers and plus infinity) on which the operation is commutative, associative and
    has a neutral element, "better" is a weak order that it respects, and accumulating keeps the better value. *)
Record search_laws {T : Type} (ok : T -> Prop) (OP : oper T) (ACC : accum T) : Prop := {
  sl_neutral : ok (o_neutral OP);
  sl_op : forall a b, ok a -> ok b -> ok (o_op OP a b);
  sl_comm : forall a b, ok a -> ok b -> o_op OP a b = o_op OP b a;
  sl_assoc : forall a b c, ok a -> ok b -> ok c -> o_op OP a (o_op OP b c) = o_op OP (o_op OP a b) c;
  sl_unit : forall a, ok a -> o_op OP (o_neutral OP) a = a;
  sl_irrefl : forall a, ok a -> a_bop ACC a a = false;
  sl_negtrans : forall a b c, ok a -> ok b -> ok c -> a_bop ACC a b = false -> a_bop ACC b c = false -> a_bop ACC a c = false;
  sl_asym : forall a b, ok a -> ok b -> a_bop ACC a b = true -> a_bop ACC b a = false;
  sl_mono : forall a b c, ok a -> ok b -> ok c -> a_bop ACC a b = false -> a_bop ACC (o_op OP c a) (o_op OP c b) = false;
  sl_select : forall a b, ok a -> ok b -> a_op ACC a b = if a_bop ACC a b then a else b;
  sl_first : forall a, ok a -> a_op ACC a (a_neutral ACC) = a;
  sl_lowest : forall a, ok a -> a_bop ACC a (a_ineutral ACC) = false }.

(** All values of a model, at labelings, are such values. *)
Definition ok_gmv {T : Type} (ok : T -> Prop) (g : gmv T) : Prop := fin_gmv ok g.

(** The front of the heap is an entry that no entry beats. *)
Definition good_pick {T : Type} (ok : T -> Prop) (ACC : accum T) (pick : nat -> list (anode T) -> nat) : Prop :=
  forall t l, l <> [] -> Forall (fun a => ok (an_value a)) l ->
  exists a, nth_error l (pick t l) = Some a /\ Forall (fun b => a_bop ACC (an_value b) (an_value a) = false) l.

(** Different labelings, each of them not beaten by any labeling that does not come earlier. *)
Definition best_first {T : Type} (OP : oper T) (ACC : accum T) (g : gmv T) (xs : list (list nat)) : Prop :=
  NoDup xs /\ Forall (labeling g) xs /\
  forall k x y, nth_error xs k = Some x -> labeling g y -> ~ In y (firstn k xs) -> a_bop ACC (total OP g y) (total OP g x) = false.

(** The model without the factors that have no variable. *)
Definition without_constants {T : Type} (g : gmv T) : gmv T := mkGmv (v_labels g) (filter (fun fc => negb (length (fst fc) =? 0)) (v_factors g)).

(** No cycles: every set of factors of two variables among the given ones touches more variables than it has factors. *)
Definition touched {T : Type} (g : gmv T) (S : list nat) : list nat :=
  nodup Nat.eq_dec (concat (map (fun i => match nth_error (v_factors g) i with Some (vis, _) => vis | None => [] end) S)).
Definition forest {T : Type} (g : gmv T) (ids : list nat) : Prop :=
  forall S, S <> [] -> NoDup S -> Forall (fun i => In i ids /\ exists a b F, nth_error (v_factors g) i = Some ([a; b], F)) S ->
  length S < length (touched g S).

(** What a call of infer leaves: labelings in order of their value, as many as asked for unless there are fewer, a visitor
    stops, or one is worse than the objective bound; a bound on the values of all others.  [value] is the value of a labeling as
    the heuristic sees it. *)
Record search_result {T : Type} (OP : oper T) (ACC : accum T) (g : gmv T) (value : list nat -> T) (para : aparam T) (stop : nat -> bool)
    (found : list (list nat)) (s : astar T) (t : termination) : Prop := {
  sr_best : best_first OP ACC g (found ++ as_optConf s);
  sr_number : length (as_optConf s) <= p_numberOfOpt para;
  sr_all : (forall c, stop c = false) ->
    (length (as_optConf s) = Nat.min (p_numberOfOpt para) (size_of (v_labels g) - length found) /\
     (t = NORMAL <-> p_numberOfOpt para < size_of (v_labels g) - length found)) \/
    (t = NORMAL /\ exists xs x, as_optConf s = xs ++ [x] /\ a_bop ACC (p_objectiveBound para) (value x) = true);
  sr_bound : forall y, labeling g y -> ~ In y (found ++ as_optConf s) -> a_bop ACC (value y) (astar_bound T s) = false;
  sr_last : (forall c, stop c = false) -> forall xs x, as_optConf s = xs ++ [x] -> astar_bound T s = value x;
  sr_value : forall x xs, as_optConf s = x :: xs -> astar_value T OP ACC g s = Ret (total OP g x);
  sr_arg : forall k x c, nth_error (as_optConf s) k = Some x -> astar_arg T g s c (S k) = Ret (x, NORMAL) }.

(** No two factors have the same two variables. *)
Definition simple_pairs {T : Type} (g : gmv T) : Prop :=
  forall i j vis F G, nth_error (v_factors g) i = Some (vis, F) -> nth_error (v_factors g) j = Some (vis, G) -> length vis = 2 -> i = j.

(** The results of some calls of infer, in order. *)
Fixpoint infers {T : Type} (infer : astar T -> outcome (astar T * termination)) (k : nat) (s : astar T) : outcome (list (list nat)) :=
  match k with
  | 0 => Ret []
  | S k => ' (s, _) <- infer s ;; rest <- infers infer k s ;; Ret (as_optConf s ++ rest)
  end.

(** The tree factors and their variables have no cycle. *)
Definition tree_acyclic {T : Type} (g : gmv T) (ids : list nat) : Prop :=
  forall c, cycle (edge (fgraph_of T g)) c -> exists f, In (NF f) c /\ ~ In f ids.
(** Once the first variable of a factor is reached in the order, at most one other variable of it is not. *)
Definition first_late {T : Type} (g : gmv T) (order ids : list nat) : Prop :=
  forall i v vis F k, nth_error (v_factors g) i = Some (v :: vis, F) -> ~ In i ids -> In v (firstn k order) ->
  length (filter (fun u => negb (existsb (Nat.eqb u) (firstn k order))) vis) <= 1.
(** What is expected of the solver for models without cycles: a best labeling with one given label. *)
Definition tree_solver {T : Type} (ok : T -> Prop) (OP : oper T) (ACC : accum T) (g : gmv T) (solve : gmv T -> nat -> nat -> outcome (list nat)) : Prop :=
  forall m v i, wf_gmv m -> ok_gmv ok m -> acyclic m -> incl (v_labels m) (v_labels g) -> v < length (v_labels m) -> i < nth v (v_labels m) 0 ->
  exists x, solve m v i = Ret x /\ optimal_given OP ACC m [(v, i)] x.
