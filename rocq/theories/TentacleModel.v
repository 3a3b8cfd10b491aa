(** GraphicalModelManipulator::lockAndTentacelElimination and the use of tentacles:
    include/opengm/graphicalmodel/graphicalmodel_manipulator.hxx 109-119, 241-295, 364-381, 467-484, 493-847.

    Simplified: the two exact solvers that the function runs on a tentacle (706-829) are parameters here; they are
    modelled in DpNodeModel.v.  The model of a tentacle is represented by its view: its functions, ViewFunction
    and ViewFixVariablesFunction, by what they evaluate to (C21).  reserve() calls, counters that are only counted and
    the assertions are left out.  An ExplicitFunction over the labels of a root (727-730) is a list of values; added to
    the modified model (366-369) it is a view of this list.  The decrement of a degree 0, an unsigned wrap-around, is
    Undef (it is proved not to occur). *)
From Verif Require Import Base Values GmView FunctionViewsModel UtilModel MovemakerModel SubmodelModel ManipulatorModel.

Section Tentacle.
Variable T : Type.
Variable OP : oper T.
Variable g : gmv T.
Variable md : mode.
(** Lines 706-755 and 773-810, for a tentacle with a root: the values and the labelings of the tentacle, one for each
    label of the root; lines 756-768 and 812-826, for a tentacle without root: a labeling. *)
Variable solve_rooted : gmv T -> nat -> outcome (list T * list (list nat)).
Variable solve_free : gmv T -> outcome (list nat).
Let n := length (v_labels g).
Let nf := length (v_factors g).

(** The members of lines 109-113, one record for each tentacle with a root. *)
Record tent : Type := mkTent { t_root : nat; t_fun : list T; t_cand : list (list nat); t_vars : list nat }.
Record tman : Type := mkTman { tm_man : man T; tm_tents : list tent }.

(** *** Lines 511-526: degrees *)
(** Lines 514-518. *)
Definition factor_degree (fix_ : list bool) (k : nat) (fd : list nat) (vis : list nat) : outcome (list nat) :=
  foldM (fun fd v => b <- rd fix_ v ;; if b : bool then Ret fd else d <- rd fd k ;; wr fd k (S d)) vis fd.
(** Lines 520-524. *)
Definition variable_degree (fix_ : list bool) (vd : list nat) (vis : list nat) : outcome (list nat) :=
  foldM (fun vd v => b <- rd fix_ v ;; if b : bool then Ret vd else d <- rd vd v ;; wr vd v (S d)) vis vd.
Definition setup_factor (fix_ : list bool) (st : list nat * list nat) (k : nat) : outcome (list nat * list nat) :=
  fc <- rd (v_factors g) k ;;
  fd <- factor_degree fix_ k (fst st) (fst fc) ;;
  d <- rd fd k ;;
  vd <- (if 1 <? d then variable_degree fix_ (snd st) (fst fc) else Ret (snd st)) ;;
  Ret (fd, vd).

(** *** Lines 528-536: leafs.  The back of [leafs] is the head of the list; pushed2Leafs has an entry for each FACTOR. *)
Record peel : Type := mkPeel { p_fd : list nat; p_vd : list nat; p_tf : list bool; p_pushed : list bool; p_in : list bool; p_leafs : list nat }.
Definition setup_leaf (fix_ : list bool) (p : peel) (var : nat) : outcome peel :=
  d <- rd (p_vd p) var ;;
  b <- (if d <=? 1 then b <- rd fix_ var ;; Ret (negb b) else Ret false) ;;
  if b : bool then
    pushed <- wr (p_pushed p) var true ;;
    in_ <- wr (p_in p) var true ;;
    Ret (mkPeel (p_fd p) (p_vd p) (p_tf p) pushed in_ (var :: p_leafs p))
  else Ret p.
Definition peel_init (fix_ : list bool) : outcome peel :=
  ' (fd, vd) <- foldM (setup_factor fix_) (seq 0 nf) (repeat 0 nf, repeat 0 n) ;;
  foldM (setup_leaf fix_) (seq 0 n) (mkPeel fd vd (repeat false nf) (repeat false nf) (repeat false n) []).

(** *** Lines 547-577: take leafs off *)
(** Lines 552-558, one factor of the leaf. *)
Definition reduce_factor (st : list nat * list bool) (k : nat) : outcome (list nat * list bool) :=
  d <- rd (fst st) k ;;
  match d with
  | 0 => Undef
  | S d =>
      fd <- wr (fst st) k d ;;
      tf <- (if d <=? 1 then wr (snd st) k true else Ret (snd st)) ;;
      Ret (fd, tf)
  end.
(** Lines 562-573, one variable of a factor with one variable left. *)
Definition reduce_variable (fix_ : list bool) (p : peel) (v : nat) : outcome peel :=
  b <- rd fix_ v ;;
  if b : bool then Ret p
  else
    d <- rd (p_vd p) v ;;
    match d with
    | 0 => Undef
    | S d =>
        vd <- wr (p_vd p) v d ;;
        pushed <- (if d =? 1 then q <- rd (p_pushed p) v ;; Ret (negb q) else Ret false) ;;
        p <- (if pushed : bool
              then ps <- wr (p_pushed p) v true ;; Ret (mkPeel (p_fd p) vd (p_tf p) ps (p_in p) (v :: p_leafs p))
              else Ret (mkPeel (p_fd p) vd (p_tf p) (p_pushed p) (p_in p) (p_leafs p))) ;;
        in_ <- wr (p_in p) v true ;;
        Ret (mkPeel (p_fd p) (p_vd p) (p_tf p) (p_pushed p) in_ (p_leafs p))
    end.
(** Lines 560-576, one factor of the leaf. *)
Definition check_factor (fix_ : list bool) (p : peel) (k : nat) : outcome peel :=
  d <- rd (p_fd p) k ;;
  if d =? 1 then fc <- rd (v_factors g) k ;; foldM (reduce_variable fix_) (fst fc) p else Ret p.
(** Lines 547-577; each variable is a leaf at most once. *)
Fixpoint peel_loop (fix_ : list bool) (fuel : nat) (p : peel) : outcome peel :=
  match fuel with
  | 0 => Diverge
  | S fuel =>
      match p_leafs p with
      | [] => Ret p
      | var :: leafs =>
          ' (fd, tf) <- foldM reduce_factor (v_adj T g var) (p_fd p, p_tf p) ;;
          p <- foldM (check_factor fix_) (v_adj T g var) (mkPeel fd (p_vd p) tf (p_pushed p) (p_in p) leafs) ;;
          peel_loop fix_ fuel p
      end
  end.
(** Lines 580-593: isRoot. *)
Definition roots_of (p : peel) : outcome (list bool) :=
  mapM (fun var => b <- rd (p_in p) var ;; if b : bool then d <- rd (p_vd p) var ;; Ret (0 <? d) else Ret false) (seq 0 n).

(** *** Lines 632-671: the variables of a tentacle *)
Record search : Type := mkSearch { s_list : list nat; s_visited : list bool; s_hasRoot : bool; s_root : nat }.
(** Lines 654-660. *)
Definition visit (fix_ : list bool) (s : search) (v : nat) : outcome search :=
  b <- rd fix_ v ;; c <- (if b : bool then Ret true else rd (s_visited s) v) ;;
  if c : bool then Ret s
  else vs <- wr (s_visited s) v true ;; Ret (mkSearch (s_list s ++ [v]) vs (s_hasRoot s) (s_root s)).
(** Lines 640-669; [i] counts the variables. *)
Fixpoint search_loop (fix_ isRoot tf : list bool) (fuel i : nat) (s : search) : outcome search :=
  match fuel with
  | 0 => Diverge
  | S fuel =>
      if i <? length (s_list s) then
        v <- rd (s_list s) i ;;
        r <- rd isRoot v ;;
        let s := if r : bool then mkSearch (s_list s) (s_visited s) true v else s in
        s <- foldM (fun s k => t <- rd tf k ;; if t : bool then fc <- rd (v_factors g) k ;; foldM (visit fix_) (fst fc) s else Ret s) (v_adj T g v) s ;;
        search_loop fix_ isRoot tf fuel (S i) s
      else Ret s
  end.

(** *** Lines 673-720: the model of a tentacle *)
(** std::sort, line 675: the ascending rearrangement, here by insertion. *)
Fixpoint nat_ins (x : nat) (l : list nat) : list nat :=
  match l with [] => [x] | y :: t => if x <=? y then x :: l else y :: nat_ins x t end.
Definition nat_sort (l : list nat) : list nat := fold_right nat_ins [] l.
(** The labels of all variables of a factor from those of the variables that are not fixed: what the functions of lines
    712 and 715 pass to the factor. *)
Fixpoint merge (fix_ : list bool) (lab : list nat) (vis l : list nat) : list nat :=
  match vis with
  | [] => []
  | v :: vis => if nth v fix_ false then nth v lab 0 :: merge fix_ lab vis l
                else match l with [] => 0 :: merge fix_ lab vis [] | a :: l => a :: merge fix_ lab vis l end
  end.
(** Lines 699-710: freeVars. *)
Definition free_part (fix_ in_ : list bool) (tt : list nat) (vis : list nat) : outcome (list nat) :=
  foldM (fun l v => b <- rd fix_ v ;; if b : bool then Ret l
                    else c <- rd in_ v ;; if c : bool then i <- rd tt v ;; Ret (l ++ [i]) else Ret l) vis [].
(** Lines 691-719, one factor; the state holds tFactor, tentacleFactor_ and the factors of the model gmt. *)
Definition tent_factor (fix_ : list bool) (lab : list nat) (in_ : list bool) (tt : list nat) (nv : nat) (hasRoot : bool)
    (st : list bool * list bool * list (list nat * (list nat -> T))) (k : nat) : outcome (list bool * list bool * list (list nat * (list nat -> T))) :=
  let '(tf, tent_, fs) := st in
  t <- rd tf k ;;
  if t : bool then
    tf <- wr tf k false ;;
    tent_ <- wr tent_ k hasRoot ;;
    fc <- rd (v_factors g) k ;;
    fv <- free_part fix_ in_ tt (fst fc) ;;
    if increasing None nv fv then Ret (tf, tent_, fs ++ [(fv, fun l => snd fc (merge fix_ lab (fst fc) l))]) else Throw
  else Ret st.
(** Lines 677-682: gmvar2ttvar. *)
Definition number_vars (varList tt : list nat) : outcome (list nat) :=
  foldM (fun tt i => v <- rd varList i ;; wr tt v i) (seq 0 (length varList)) tt.

(** *** Lines 630-843: all tentacles *)
Record elim : Type := mkElim { e_fix : list bool; e_lab : list nat; e_tf : list bool; e_tent : list bool; e_tents : list tent; e_tt : list nat; e_visited : list bool }.
(** Lines 742-746 and 802-806. *)
Definition fix_dummies (root : nat) (varList : list nat) (fl : list bool * list nat) : outcome (list bool * list nat) :=
  foldM (fun (fl : list bool * list nat) v => if v =? root then Ret fl else f <- wr (fst fl) v true ;; l <- wr (snd fl) v 0 ;; Ret (f, l)) varList fl.
(** Lines 763-767 and 821-825. *)
Definition fix_solved (varList arg : list nat) (fl : list bool * list nat) : outcome (list bool * list nat) :=
  foldM (fun (fl : list bool * list nat) i => v <- rd varList i ;; f <- wr (fst fl) v true ;; a <- rd arg i ;; l <- wr (snd fl) v a ;; Ret (f, l)) (seq 0 (length varList)) fl.
(** Lines 632-842, one variable. *)
Definition elim_var (in_ isRoot : list bool) (e : elim) (var : nat) : outcome elim :=
  b <- rd in_ var ;;
  c <- (if b : bool then rd (e_visited e) var else Ret true) ;;
  if c : bool then Ret e
  else
    vs <- wr (e_visited e) var true ;;
    s <- search_loop (e_fix e) isRoot (e_tf e) (S n) 0 (mkSearch [var] vs false 0) ;;
    let varList := nat_sort (s_list s) in
    numStates <- mapM (rd (v_labels g)) varList ;;
    tt <- number_vars varList (e_tt e) ;;
    ' (tf, tent_, fs) <- foldM (fun st v => foldM (tent_factor (e_fix e) (e_lab e) in_ tt (length varList) (s_hasRoot s)) (v_adj T g v) st) varList (e_tf e, e_tent e, []) ;;
    let gmt := mkGmv numStates fs in
    if s_hasRoot s then
      r <- rd tt (s_root s) ;;
      ' (vals, cands) <- solve_rooted gmt r ;;
      ' (fx, lb) <- fix_dummies (s_root s) varList (e_fix e, e_lab e) ;;
      Ret (mkElim fx lb tf tent_ (e_tents e ++ [mkTent (s_root s) vals cands varList]) tt (s_visited s))
    else
      arg <- solve_free gmt ;;
      ' (fx, lb) <- fix_solved varList arg (e_fix e, e_lab e) ;;
      Ret (mkElim fx lb tf tent_ (e_tents e) tt (s_visited s)).

(** Lines 493-847; the resize of line 500 as in lock(). *)
Definition lockAndTentacelElimination (t : tman) : outcome tman :=
  let m := tm_man t in
  if a_locked m then Ret t
  else match md with
  | DROP => Throw
  | FIX =>
      m <- lock T g m ;;
      p <- peel_init (a_fix m) ;;
      match p_leafs p with
      | [] => Ret (mkTman m (tm_tents t))
      | _ =>
          p <- peel_loop (a_fix m) (S n) p ;;
          isRoot <- roots_of p ;;
          e <- foldM (elim_var (p_in p) isRoot) (seq 0 n)
                 (mkElim (a_fix m) (a_lab m) (p_tf p) (a_tent m) (tm_tents t) (repeat 0 n) (repeat false n)) ;;
          Ret (mkTman (mkMan true (e_fix e) (e_lab e) (e_tent e) (a_mgm m) (a_subs m) (a_v2s m)) (e_tents e))
      end
  end.

(** *** The other members, with tentacles *)
(** The ExplicitFunction of a tentacle, lines 736-739 and 786-800. *)
Definition root_fun (t : tent) : outcome (sfun T) :=
  shape <- rd (v_labels g) (t_root t) ;; Ret (SView (mkFacv [shape] (fun l => nth (nth 0 l 0) (t_fun t) (o_neutral OP)))).
(** Lines 297-381: as ManipulatorModel.buildModifiedModel, with lines 366-370. *)
Definition tent_model (m : man T) (tents : list tent) : outcome (man T) :=
  ' (varMap, nv) <- foldM (fun (p : list nat * nat) v => b <- rd (a_fix m) v ;;
                             if b : bool then Ret p else vm <- wr (fst p) v (snd p) ;; Ret (vm, S (snd p))) (seq 0 n) (repeat 0 n, 0) ;;
  shape <- foldM (fun sh v => b <- rd (a_fix m) v ;; if b : bool then Ret sh else i <- rd varMap v ;; l <- rd (v_labels g) v ;; wr sh i l) (seq 0 n) (repeat 0 nv) ;;
  ' (s, c) <- foldM (man_factor T OP g md m varMap) (seq 0 nf) (mkSub shape [], o_neutral OP) ;;
  s <- match md with
       | FIX => s <- foldM (fun s t => var <- rd varMap (t_root t) ;; h <- root_fun t ;; sub_addFactor T s h [var]) tents s ;; add_const T s c
       | DROP => Ret s
       end ;;
  Ret (mkMan true (a_fix m) (a_lab m) (a_tent m) s (a_subs m) (a_v2s m)).
(** Lines 402-484: as ManipulatorModel.sub_models, with lines 469-474. *)
Definition tent_sub_models (m : man T) (tents : list tent) (v2s : list nat) (k : nat) : outcome (man T) :=
  let m := mkMan true (a_fix m) (a_lab m) (a_tent m) (a_mgm m) (a_subs m) v2s in
  let k := if k =? 0 then 1 else k in
  ' (varMap, nvs) <- foldM (fun (p : list nat * list nat) v => b <- rd (a_fix m) v ;;
                              if b : bool then Ret p
                              else sp <- rd v2s v ;; c <- rd (snd p) sp ;; vm <- wr (fst p) v c ;; nvs <- wr (snd p) sp (S c) ;; Ret (vm, nvs))
                      (seq 0 n) (repeat 0 n, repeat 0 k) ;;
  shape <- foldM (fun shs v => b <- rd (a_fix m) v ;;
                    if b : bool then Ret shs
                    else sp <- rd v2s v ;; i <- rd varMap v ;; l <- rd (v_labels g) v ;; sh <- rd shs sp ;; sh <- wr sh i l ;; wr shs sp sh)
             (seq 0 n) (map (fun c => repeat 0 c) nvs) ;;
  ' (ss, c) <- foldM (man_subfactor T OP g md m varMap) (seq 0 nf) (map (fun sh => mkSub sh []) shape, o_neutral OP) ;;
  ss <- match md with
        | FIX =>
            ss <- foldM (fun ss t => var <- rd varMap (t_root t) ;; sp <- rd v2s (t_root t) ;; h <- root_fun t ;;
                           s <- rd ss sp ;; s <- sub_addFactor T s h [var] ;; wr ss sp s) tents ss ;;
            s <- rd ss 0 ;; s <- add_const T s c ;; wr ss 0 s
        | DROP => Ret ss
        end ;;
  Ret (mkMan true (a_fix m) (a_lab m) (a_tent m) (a_mgm m) ss v2s).
(** Lines 383-484. *)
Definition tent_submodels (m : man T) (tents : list tent) : outcome (man T) :=
  ' (v2s, k) <- components T g m ;; tent_sub_models m tents v2s k.
(** Lines 258-265 and 286-293: the labels of the variables of tentacles. *)
Definition tent_labels (tents : list tent) (ol : list nat) : outcome (list nat) :=
  foldM (fun ol t => l <- rd ol (t_root t) ;;
           foldM (fun ol k => v <- rd (t_vars t) k ;; c <- rd (t_cand t) l ;; a <- rd c k ;; wr ol v a) (seq 0 (length (t_vars t))) ol)
        tents ol.
(** Lines 241-268. *)
Definition tent_modifiedState2OriginalState (t : tman) (ml ol : list nat) : outcome (list nat) :=
  if a_locked (tm_man t) && (length ml =? length (s_labels (a_mgm (tm_man t)))) then
    ol <- modifiedState2OriginalState T g (tm_man t) ml ol ;; tent_labels (tm_tents t) ol
  else Ret ol.
(** Lines 270-295. *)
Definition tent_modifiedSubStates2OriginalState (t : tman) (subconf : list (list nat)) (conf : list nat) : outcome (list nat) :=
  conf <- modifiedSubStates2OriginalState T g (tm_man t) subconf conf ;; tent_labels (tm_tents t) conf.

(** Histories. *)
Definition tent_new : tman := mkTman (man_new T g) [].
Inductive tentop : Type := TOp (o : manop) | TElim.
Definition tstep (t : tman) (o : tentop) : outcome tman :=
  match o with
  | TElim => lockAndTentacelElimination t
  | TOp OBuild => m <- tent_model (tm_man t) (tm_tents t) ;; Ret (mkTman m (tm_tents t))
  | TOp OBuildSub => m <- tent_submodels (tm_man t) (tm_tents t) ;; Ret (mkTman m (tm_tents t))
  | TOp o => m <- mstep T OP g md (tm_man t) o ;; Ret (mkTman m (tm_tents t))
  end.
End Tentacle.
Arguments mkTent {T}. Arguments t_root {T}. Arguments t_fun {T}. Arguments t_cand {T}. Arguments t_vars {T}.
Arguments mkTman {T}. Arguments tm_man {T}. Arguments tm_tents {T}.
Arguments mkElim {T}. Arguments e_fix {T}. Arguments e_lab {T}. Arguments e_tf {T}. Arguments e_tent {T}. Arguments e_tents {T}. Arguments e_tt {T}. Arguments e_visited {T}.
