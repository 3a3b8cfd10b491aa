(** The sub-model of a Movemaker: include/opengm/inference/movemaker.hxx 107-216.

    The sub-model is a graphical model over the chosen variables whose functions are views of the factors of the
    original model; the buffers inside those views are mutable, so evaluation returns a new state.
    Simplified: the inference algorithm run on the sub-model (lines 125-127) is a parameter. *)
From Verif Require Import Base Values GmView FunctionViewsModel UtilModel MovemakerModel.

Section Submodel.
Variable T : Type.
Variable OP : oper T.
Variable g : gmv T.

(** gm_[factorIndex] as a view sees it. *)
Definition factor_facv (fc : list nat * (list nat -> T)) : outcome (facv T) :=
  sh <- mapM (rd (v_labels g)) (fst fc) ;; Ret (mkFacv sh (snd fc)).

(** SubGmType's function types, movemaker.hxx 30-32: ViewFunction and ViewFixVariablesFunction. *)
Inductive sfun : Type := SView (f : facv T) | SFix (v : viewfix T).
Record subgm : Type := mkSub { s_labels : list nat; s_factors : list (list nat * sfun) }.

(** addFactor (graphicalmodel.hxx 653-696, see GmModel.addFactor_loop) throws unless the variables are increasing
    and exist. *)
Fixpoint increasing (prev : option nat) (n : nat) (vis : list nat) : bool :=
  match vis with
  | [] => true
  | v :: r => match prev with None => true | Some p => p <? v end && (v <? n) && increasing (Some v) n r
  end.
Definition sub_addFactor (s : subgm) (f : sfun) (vis : list nat) : outcome subgm :=
  if increasing None (length (s_labels s)) vis then Ret (mkSub (s_labels s) (s_factors s ++ [(vis, f)])) else Throw.

(** The variables of one factor, lines 198-206: those in the sub-model and the others with their positions and
    current labels. *)
Definition split_factor (m : mm T) (vars vis : list nat) : outcome (list nat * list pal) :=
  foldM (fun (p : list nat * list pal) vv =>
           v <- rd vis vv ;;
           o <- findInSortedSequence (map Z.of_nat vars) (Z.of_nat v) ;;
           match o with
           | None => s <- rd (mm_state m) v ;; Ret (fst p, snd p ++ [(vv, s)])
           | Some i => Ret (fst p ++ [i], snd p)
           end)
        (seq 0 (length vis)) ([], []).

(** One factor of a variable, lines 187-212, with addSingleSide, addHigherOrderInsideFactor and
    addHigherOrderBorderFactor, 130-172.  The set addedFactors (a std::set) is a list. *)
Definition sub_factor (m : mm T) (vars : list nat) (subVi : nat) (st : subgm * list nat) (k : nat) : outcome (subgm * list nat) :=
  let '(s, added) := st in
  if existsb (Nat.eqb k) added then Ret st
  else
    fc <- rd (v_factors g) k ;;
    let vis := fst fc in
    f <- factor_facv fc ;;
    if length vis =? 0 then Ret st
    else if length vis =? 1 then
      s <- sub_addFactor s (SView f) [subVi] ;; Ret (s, sins k added)
    else
      ' (inner, fixed) <- split_factor m vars vis ;;
      if length fixed =? 0 then s <- sub_addFactor s (SView f) inner ;; Ret (s, sins k added)
      else v <- vf_new f fixed ;; s <- sub_addFactor s (SFix v) inner ;; Ret (s, sins k added).

(** addFactorsToSubGm, lines 174-216, on the empty sub-model of lines 118-123. *)
Definition sub_build (m : mm T) (vars : list nat) : outcome subgm :=
  sp <- mapM (rd (v_labels g)) vars ;;
  r <- foldM (fun st subVi => v <- rd vars subVi ;; foldM (sub_factor m vars subVi) (v_adj T g v) st)
         (seq 0 (length sp)) (mkSub sp [], []) ;;
  Ret (fst r).

(** Evaluation of the sub-model, graphicalmodel.hxx 445-474 (GmModel.evaluate). *)
Definition sub_step (y : list nat) (st : list (list nat * sfun) * T) (i : nat) : outcome (list (list nat * sfun) * T) :=
  ' (vis, f) <- rd (fst st) i ;;
  l <- mapM (rd y) vis ;;
  ' (f, r) <- match f with
              | SView f => r <- view_value T f l ;; Ret (SView f, r)
              | SFix v => ' (v, r) <- vf_call v l ;; Ret (SFix v, r)
              end ;;
  fs <- wr (fst st) i (vis, f) ;;
  Ret (fs, o_op OP r (snd st)).
Definition sub_evaluate (s : subgm) (y : list nat) : outcome (subgm * T) :=
  ' (fs, r) <- foldM (sub_step y) (seq 0 (length (s_factors s))) (s_factors s, o_neutral OP) ;;
  Ret (mkSub (s_labels s) fs, r).

(** proposeMoveAccordingToInference, lines 107-128; [solve] stands for constructing the inference object on the
    sub-model, infer() and arg(). *)
Definition proposeMove (solve : subgm -> outcome (list nat)) (m : mm T) (vars : list nat) : outcome (list nat) :=
  s <- sub_build m vars ;; solve s.
End Submodel.
Arguments SView {T}. Arguments SFix {T}. Arguments mkSub {T}. Arguments s_labels {T}. Arguments s_factors {T}.
