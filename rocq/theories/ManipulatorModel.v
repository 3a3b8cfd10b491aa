(** GraphicalModelManipulator: include/opengm/graphicalmodel/graphicalmodel_manipulator.hxx.

    Simplified: no tentacle is eliminated here, so there are no tentacle roots; lockAndTentacelElimination (493-847) and
    the members with tentacles are in TentacleModel.v; the flags validModel_ and validSubModels_, which only occur in assertions, are left out; a ConstantFunction without variables
    (376, 479) is a view of a factor without variables. *)
From Verif Require Import Base Values GmView FunctionViewsModel UtilModel MovemakerModel SubmodelModel.

Section Manipulator.
Variable T : Type.
Variable OP : oper T.
Variable g : gmv T.
(** Lines 56-59. *)
Inductive mode : Type := FIX | DROP.
Variable md : mode.

(** The members, lines 98-119. *)
Record man : Type := mkMan { a_locked : bool; a_fix : list bool; a_lab : list nat; a_tent : list bool;
  a_mgm : subgm T; a_subs : list (subgm T); a_v2s : list nat }.
Let n := length (v_labels g).
Let nf := length (v_factors g).

(** Lines 132-144. *)
Definition man_new : man := mkMan false (repeat false n) (repeat 0 n) [] (mkSub [] []) [] (repeat 0 n).
(** Lines 126-130. *)
Definition isFixed (m : man) (v : nat) : outcome bool := rd (a_fix m) v.
(** Lines 208-217. *)
Definition fixVariable (m : man) (v l : nat) : outcome man :=
  if a_locked m then Ret m
  else fx <- wr (a_fix m) v true ;; lb <- wr (a_lab m) v l ;; Ret (mkMan (a_locked m) fx lb (a_tent m) (a_mgm m) (a_subs m) (a_v2s m)).
(** Lines 219-227. *)
Definition freeVariable (m : man) (v : nat) : outcome man :=
  if a_locked m then Ret m
  else fx <- wr (a_fix m) v false ;; Ret (mkMan (a_locked m) fx (a_lab m) (a_tent m) (a_mgm m) (a_subs m) (a_v2s m)).
(** Lines 229-239. *)
Definition freeAllVariables (m : man) : outcome man :=
  if a_locked m then Ret m
  else fx <- foldM (fun fx v => wr fx v false) (seq 0 (length (a_fix m))) (a_fix m) ;;
    Ret (mkMan (a_locked m) fx (a_lab m) (a_tent m) (a_mgm m) (a_subs m) (a_v2s m)).
(** Lines 181-190. *)
Definition unlock (m : man) : outcome man :=
  freeAllVariables (mkMan false (a_fix m) (a_lab m) (a_tent m) (a_mgm m) [] (a_v2s m)).
(** Lines 192-198; std::vector::resize. *)
Definition lock (m : man) : outcome man :=
  Ret (mkMan true (a_fix m) (a_lab m) (firstn nf (a_tent m) ++ repeat false (nf - length (a_tent m))) (a_mgm m) (a_subs m) (a_v2s m)).

(** Lines 332-341 and 434-444: the variables of a factor, the fixed ones with their positions and labels; [sub] follows
    the variable subproblem of lines 433 and 442. *)
Definition man_split (m : man) (varMap : list nat) (vis : list nat) : outcome (list nat * list pal * nat) :=
  foldM (fun (p : list nat * list pal * nat) i =>
           let '(mv, fx, sub) := p in
           v <- rd vis i ;; b <- rd (a_fix m) v ;;
           if b then l <- rd (a_lab m) v ;; Ret (mv, fx ++ [(i, l)], sub)
           else j <- rd varMap v ;; s <- rd (a_v2s m) v ;; Ret (mv ++ [j], fx, s))
        (seq 0 (length vis)) ([], [], 0).
(** Lines 347-351 and 447-451. *)
Definition man_const (m : man) (vis : list nat) (f : facv T) (c : T) : outcome T :=
  fixedStates <- mapM (rd (a_lab m)) vis ;; r <- fa_call f fixedStates ;; Ret (o_op OP r c).
(** Lines 330-364, one factor. *)
Definition man_factor (m : man) (varMap : list nat) (st : subgm T * T) (k : nat) : outcome (subgm T * T) :=
  let '(s, c) := st in
  t <- rd (a_tent m) k ;;
  if t : bool then Ret st
  else
    fc <- rd (v_factors g) k ;;
    f <- factor_facv T g fc ;;
    ' (mv, fx, _) <- man_split m varMap (fst fc) ;;
    match md with
    | FIX => if length fx =? 0 then s <- sub_addFactor T s (SView f) mv ;; Ret (s, c)
             else if length fx =? length (fst fc) then c <- man_const m (fst fc) f c ;; Ret (s, c)
             else v <- vf_new f fx ;; s <- sub_addFactor T s (SFix v) mv ;; Ret (s, c)
    | DROP => if length fx =? 0 then s <- sub_addFactor T s (SView f) mv ;; Ret (s, c) else Ret (s, c)
    end.
(** Lines 372-378. *)
Definition add_const (s : subgm T) (c : T) : outcome (subgm T) := sub_addFactor T s (SView (mkFacv [] (fun _ => c))) [].
(** Lines 297-381. *)
Definition buildModifiedModel (m : man) : outcome man :=
  ' (varMap, nv) <- foldM (fun (p : list nat * nat) v => b <- rd (a_fix m) v ;;
                             if b : bool then Ret p else vm <- wr (fst p) v (snd p) ;; Ret (vm, S (snd p))) (seq 0 n) (repeat 0 n, 0) ;;
  shape <- foldM (fun sh v => b <- rd (a_fix m) v ;; if b : bool then Ret sh else i <- rd varMap v ;; l <- rd (v_labels g) v ;; wr sh i l) (seq 0 n) (repeat 0 nv) ;;
  ' (s, c) <- foldM (man_factor m varMap) (seq 0 nf) (mkSub shape [], o_neutral OP) ;;
  s <- match md with FIX => add_const s c | DROP => Ret s end ;;
  Ret (mkMan true (a_fix m) (a_lab m) (a_tent m) s (a_subs m) (a_v2s m)).

(** Lines 852-867, with fuel for the depth of the recursion. *)
Fixpoint expand (fuel ccn var : nat) (st : list bool * list nat) : outcome (list bool * list nat) :=
  match fuel with
  | O => Diverge
  | S fuel =>
      b <- rd (fst st) var ;;
      if b : bool then Ret st
      else
        closed <- wr (fst st) var true ;;
        v2s <- wr (snd st) var ccn ;;
        foldM (fun st k => fc <- rd (v_factors g) k ;; foldM (fun st v => expand fuel ccn v st) (fst fc) st) (v_adj T g var) (closed, v2s)
  end.
(** Lines 391-401. *)
Definition components (m : man) : outcome (list nat * nat) :=
  ' (_, v2s, k) <- foldM (fun (p : list bool * list nat * nat) v =>
                      let '(closed, v2s, k) := p in
                      b <- rd closed v ;;
                      if b : bool then Ret p else ' (closed, v2s) <- expand (S n) k v (closed, v2s) ;; Ret (closed, v2s, S k))
                    (seq 0 n) (a_fix m, a_v2s m, 0) ;;
  Ret (v2s, k).
(** Lines 431-468, one factor. *)
Definition man_subfactor (m : man) (varMap : list nat) (st : list (subgm T) * T) (k : nat) : outcome (list (subgm T) * T) :=
  let '(ss, c) := st in
  t <- rd (a_tent m) k ;;
  if t : bool then Ret st
  else
    fc <- rd (v_factors g) k ;;
    f <- factor_facv T g fc ;;
    ' (mv, fx, sp) <- man_split m varMap (fst fc) ;;
    let add h := s <- rd ss sp ;; s <- sub_addFactor T s h mv ;; ss <- wr ss sp s ;; Ret (ss, c) in
    match md with
    | FIX => if length mv =? 0 then c <- man_const m (fst fc) f c ;; Ret (ss, c)
             else if length fx =? 0 then add (SView f)
             else v <- vf_new f fx ;; add (SFix v)
    | DROP => if length fx =? 0 then add (SView f) else Ret (ss, c)
    end.
(** Lines 402-484, with [k] groups of variables. *)
Definition sub_models (m : man) (v2s : list nat) (k : nat) : outcome man :=
  let m := mkMan true (a_fix m) (a_lab m) (a_tent m) (a_mgm m) (a_subs m) v2s in
  let k := if k =? 0 then 1 else k in
  ' (varMap, nvs) <- foldM (fun (p : list nat * list nat) v => b <- rd (a_fix m) v ;;
                              if b : bool then Ret p
                              else sp <- rd v2s v ;; c <- rd (snd p) sp ;; vm <- wr (fst p) v c ;; nvs <- wr (snd p) sp (S c) ;; Ret (vm, nvs))
                      (seq 0 n) (repeat 0 n, repeat 0 k) ;;
  shape <- foldM (fun shs v => b <- rd (a_fix m) v ;;
                    if b : bool then Ret shs
                    else sp <- rd v2s v ;; i <- rd varMap v ;; l <- rd (v_labels g) v ;; sh <- rd shs sp ;; sh <- wr sh i l ;; wr shs sp sh)
             (seq 0 n) (map (fun c => repeat 0 c) nvs) ;;
  ' (ss, c) <- foldM (man_subfactor m varMap) (seq 0 nf) (map (fun sh => mkSub sh []) shape, o_neutral OP) ;;
  ss <- match md with FIX => s <- rd ss 0 ;; s <- add_const s c ;; wr ss 0 s | DROP => Ret ss end ;;
  Ret (mkMan true (a_fix m) (a_lab m) (a_tent m) (a_mgm m) ss v2s).
(** Lines 383-484. *)
Definition buildModifiedSubModels (m : man) : outcome man :=
  ' (v2s, k) <- components m ;; sub_models m v2s k.

(** Lines 241-268, without tentacles. *)
Definition modifiedState2OriginalState (m : man) (ml ol : list nat) : outcome (list nat) :=
  if a_locked m && (length ml =? length (s_labels (a_mgm m))) then
    ' (ol, _) <- foldM (fun (p : list nat * nat) v => b <- rd (a_fix m) v ;;
                          if b : bool then l <- rd (a_lab m) v ;; ol <- wr (fst p) v l ;; Ret (ol, snd p)
                          else l <- rd ml (snd p) ;; ol <- wr (fst p) v l ;; Ret (ol, S (snd p)))
                   (seq 0 n) (firstn n ol ++ repeat 0 (n - length ol), 0) ;;
    Ret ol
  else Ret ol.
(** Lines 270-295, without tentacles. *)
Definition modifiedSubStates2OriginalState (m : man) (subconf : list (list nat)) (conf : list nat) : outcome (list nat) :=
  ' (conf, _) <- foldM (fun (p : list nat * list nat) v => b <- rd (a_fix m) v ;;
                          if b : bool then l <- rd (a_lab m) v ;; c <- wr (fst p) v l ;; Ret (c, snd p)
                          else sp <- rd (a_v2s m) v ;; sc <- rd subconf sp ;; i <- rd (snd p) sp ;; l <- rd sc i ;;
                               c <- wr (fst p) v l ;; cnt <- wr (snd p) sp (S i) ;; Ret (c, cnt))
                   (seq 0 n) (firstn n conf ++ repeat 0 (n - length conf), repeat 0 (length (a_subs m))) ;;
  Ret conf.

(** Histories; evaluating a model changes the buffers of its functions. *)
Inductive manop : Type := OFix (v l : nat) | OFree (v : nat) | OFreeAll | OLock | OUnlock | OBuild | OBuildSub
  | OEval (y : list nat) | OEvalSub (i : nat) (y : list nat).
Definition mstep (m : man) (o : manop) : outcome man :=
  match o with
  | OFix v l => fixVariable m v l | OFree v => freeVariable m v | OFreeAll => freeAllVariables m
  | OLock => lock m | OUnlock => unlock m | OBuild => buildModifiedModel m | OBuildSub => buildModifiedSubModels m
  | OEval y => r <- sub_evaluate T OP (a_mgm m) y ;;
      Ret (mkMan (a_locked m) (a_fix m) (a_lab m) (a_tent m) (fst r) (a_subs m) (a_v2s m))
  | OEvalSub i y => s <- rd (a_subs m) i ;; r <- sub_evaluate T OP s y ;; ss <- wr (a_subs m) i (fst r) ;;
      Ret (mkMan (a_locked m) (a_fix m) (a_lab m) (a_tent m) (a_mgm m) ss (a_v2s m))
  end.
End Manipulator.
Arguments mkMan {T}. Arguments a_locked {T}. Arguments a_fix {T}. Arguments a_lab {T}. Arguments a_tent {T}.
Arguments a_mgm {T}. Arguments a_subs {T}. Arguments a_v2s {T}.
