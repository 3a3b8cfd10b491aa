(** Model of inference/combilp.hxx (CombiLP, combilp_base) and of MaxSumTRWS::getTreeAgreement (inference/trws/trws_base.hxx).
    Simplified: the LP solver is given by what it returns, the reparametrizer by the model it returns for each call, the ILP solver by a
    function that may fail; the visitor is a predicate on the number of its call; saving the reparametrized model to a file, debug output
    and OPENGM_ASSERT are not modelled. *)
From Verif Require Import Base Values GmView SubmodelModel ManipulatorModel.

(** trws_base.hxx 1160-1182, getTreeAgreement, one variable; [labels]: its labels in the submodels that contain it, in this order.
    The result: do they agree, and the label stored in the labeling (0 from resize() if there is none) *)
Fixpoint tree_rest (label last : nat) (labels : list nat) : bool * nat :=
  match labels with [] => (true, last) | l :: labels => if l =? label then tree_rest label l labels else (false, l) end.
Definition tree_agreement (labels : list nat) : bool * nat :=
  match labels with [] => (true, 0) | l :: labels => tree_rest l l labels end.
Definition getTreeAgreement (trees : list (list nat)) : list bool * list nat := (map (fun t => fst (tree_agreement t)) trees, map (fun t => snd (tree_agreement t)) trees).

Section Combi.
Variable T : Type.
Variable OP : oper T.
(** the graphical model *)
Variable g : gmv T.

(** combilp.hxx 20-26 *)
Definition MakeFactorVariablesTrue (vis : list nat) (mask : list bool) : outcome (list bool) := foldM (fun m v => wr m v true) vis mask.
(** 28-38 *)
Definition DilateVar (gm : gmv T) (mask : list bool) (v : nat) : outcome (list bool) :=
  foldM (fun m k => fc <- rd (v_factors gm) k ;; if 1 <? length (fst fc) then MakeFactorVariablesTrue (fst fc) m else Ret m) (v_adj T gm v) mask.
(** 43-50 *)
Definition DilateMask (gm : gmv T) (inmask : list bool) : outcome (list bool) :=
  foldM (fun m v => b <- rd inmask v ;; if b : bool then DilateVar gm m v else Ret m) (seq 0 (length inmask)) inmask.
(** 52-64; the list of the variables that do not match *)
Definition LabelingMatching (l1 l2 : list nat) (mask : list bool) : outcome (list nat) :=
  foldM (fun res v => b <- rd mask v ;;
    if b : bool then a <- rd l1 v ;; c <- rd l2 v ;; Ret (if a =? c then res else res ++ [v]) else Ret res) (seq 0 (length mask)) [].
(** 82-88, is there a variable outside of the mask *)
Fixpoint unmasked (mask : list bool) (vis : list nat) : outcome bool :=
  match vis with [] => Ret false | v :: vis => b <- rd mask v ;; if b : bool then unmasked mask vis else Ret true end.
(** 66-92 *)
Definition GetMaskBoundary (gm : gmv T) (mask : list bool) : outcome (list bool) :=
  foldM (fun bm v => b <- rd mask v ;;
    if b : bool then
      foldM (fun bm k => c <- rd bm v ;;
        if c : bool then Ret bm
        else fc <- rd (v_factors gm) k ;;
          if 1 <? length (fst fc) then u <- unmasked mask (fst fc) ;; if u : bool then wr bm v true else Ret bm else Ret bm) (v_adj T gm v) bm
    else Ret bm) (seq 0 (length mask)) (repeat false (length mask)).

(** 293-298 and 207: the manipulator *)
Definition ilp_build (gm : gmv T) (mask : list bool) (lp : list nat) : outcome (man T) :=
  m <- unlock T (man_new T gm) ;; m <- freeAllVariables T m ;;
  m <- foldM (fun m v => b <- rd mask v ;; if b : bool then Ret m else l <- rd lp v ;; fixVariable T m v l) (seq 0 (length mask)) m ;;
  m <- lock T gm m ;; buildModifiedSubModels T OP gm DROP m.
(** the ILP solver: for each cycle and each submodel a labeling, or none if it ends with another result than NORMAL or CONVERGENCE *)
Variable ilp : nat -> nat -> subgm T -> option (list nat).
(** 210-229 *)
Fixpoint ilp_subs (i j : nat) (subs : list (subgm T)) : option (list (list nat)) :=
  match subs with
  | [] => Some []
  | s :: subs => match ilp i j s with None => None | Some a => match ilp_subs i (S j) subs with None => None | Some r => Some (a :: r) end end
  end.

(** 94-129, the parameters that matter *)
Record clp : Type := mkClp { cp_cycles : nat; cp_single : bool }.
Variable par : clp.
(** 346-351, _Reparametrize: the model after reparametrize(mask) in a cycle *)
Variable repa : nat -> list bool -> gmv T.
(** the visitor: does its call number k not return ContinueInf *)
Variable stop : nat -> bool.
Inductive bres : Type := BSolved (x : list nat) (v : T) | BTimeout | BFailed.
(** 255-341, CombiLP_base::infer from cycle i on; [k]: the cycles that are left; [gm]: the reparametrized model *)
Fixpoint base_loop (k i : nat) (mask : list bool) (lp : list nat) (gm : gmv T) : outcome bres :=
  match k with
  | O => Ret BTimeout
  | S k =>
    if stop (S i) then Ret BTimeout
    else
      boundmask <- GetMaskBoundary g mask ;;
      let gm := if cp_single par then (if i =? 0 then repa i (repeat true (length mask)) else gm) else repa i mask in
      m <- ilp_build gm mask lp ;;
      match ilp_subs i 0 (a_subs m) with
      | None => Ret BFailed
      | Some ys =>
        x <- modifiedSubStates2OriginalState T gm m ys [] ;;
        res <- LabelingMatching lp x boundmask ;;
        match res with
        | [] => v <- v_evaluate T OP g x ;; Ret (BSolved x v)
        | _ => mask <- foldM (DilateVar gm) res mask ;; base_loop k (S i) mask lp gm
        end
      end
  end.

(** What the LP solver returns: value(), bound(), arg(), and getTreeAgreement() *)
Record lpres : Type := mkLp { lp_value : T; lp_bound : T; lp_arg : list nat; lp_agree : list bool; lp_labeling : list nat }.
(** 456-461, the results of CombiLP *)
Record cl : Type := mkCl { cl_labeling : list nat; cl_value : T; cl_bound : T }.
(** 505-581, CombiLP::infer; all results are set at its beginning *)
Definition cl_infer (lp : lpres) : outcome cl :=
  let s := mkCl (lp_arg lp) (lp_value lp) (lp_bound lp) in
  if stop 0 then Ret s
  else if forallb (fun b => b) (lp_agree lp) then Ret s
  else
    mask <- DilateMask g (map negb (lp_agree lp)) ;;
    r <- base_loop (cp_cycles par) 0 mask (lp_labeling lp) (mkGmv [] []) ;;
    match r with BSolved x v => Ret (mkCl x v v) | _ => Ret s end.
End Combi.
Arguments mkLp {T}. Arguments lp_value {T}. Arguments lp_bound {T}. Arguments lp_arg {T}. Arguments lp_agree {T}. Arguments lp_labeling {T}.
Arguments mkCl {T}. Arguments cl_labeling {T}. Arguments cl_value {T}. Arguments cl_bound {T}.
Arguments BSolved {T}. Arguments BTimeout {T}. Arguments BFailed {T}.
