(** FusionMover and HlFusionMover: include/opengm/inference/auxiliary/fusion_move/fusion_mover.hxx.

    The solvers of the binary model are parameters: a function of the model and the starting point, if there is one, whose
    result is None for InferenceTermination UNKNOWN.  The pointers argA_, argB_ and argBest_ are the vectors themselves.
    Simplified: the vectors argA and argB, which setup reads for every variable, are then read without a check; a view is
    only evaluated at labels 0 and 1 (otherwise it throws, OPENGM_CHECK_OP), and label 1 stands for all others. *)
From Coq Require Import QArith Qcanon.
From Verif Require Import Base Values GmView HoeModel FuseModel HqpboModel.
Open Scope nat_scope.

Section Mover.
Variable T : Type.
Variable OP : oper T.
Variable ACC : accum T.
Variable g : gmv T.
Let numVar := length (v_labels g).

(** The members, lines 386-408; valueBest_, argBest_ and bestLabel_ are given by fm_bestB: argB is the better one. *)
Record fmover : Type := mkFm {
  fm_n : nat; fm_l2g : list nat; fm_g2l : list nat;
  fm_A : list nat; fm_B : list nat; fm_res : list nat; fm_vA : T; fm_vB : T; fm_bestB : bool }.
Definition fm_best (m : fmover) : list nat := if fm_bestB m then fm_B m else fm_A m.
Definition fm_vBest (m : fmover) : T := if fm_bestB m then fm_vB m else fm_vA m.
Definition fm_bestLabel (m : fmover) : nat := if fm_bestB m then 1 else 0.

(** std::copy(a.begin(), a.end(), r.begin()). *)
Definition copy_into (a r : list nat) : outcome (list nat) := if length a <=? length r then Ret (a ++ skipn (length a) r) else Undef.

(** Lines 684-692: localToGlobalVi_ and globalToLocalVi_ of the constructor. *)
Definition fm_vectors0 : list nat * list nat := (repeat 0 numVar, repeat 0 numVar).
(** setup, lines 696-740; [vs] are the two index vectors, which keep old entries. *)
Definition fm_setup (vs : list nat * list nat) (A B res : list nat) (vA vB : T) : outcome fmover :=
  st <- foldM (fun (st : nat * (list nat * list nat)) vi =>
                 a <- rd A vi ;; b <- rd B vi ;;
                 if a =? b then Ret st
                 else l2g <- wr (fst (snd st)) (fst st) vi ;; g2l <- wr (snd (snd st)) vi (fst st) ;; Ret (S (fst st), (l2g, g2l)))
          (seq 0 numVar) (0, vs) ;;
  res <- copy_into A res ;;
  Ret (mkFm (fst st) (fst (snd st)) (snd (snd st)) A B res vA vB (negb (a_bop ACC vA vB))).

(** FuseViewFunction::operator(), lines 66-82. *)
Definition FuseViewFunction (A B : list nat) (fc : list nat * (list nat -> T)) (l : list nat) : T :=
  snd fc (map (fun p => if snd p =? 0 then nth (fst p) A 0 else nth (fst p) B 0) (combine (fst fc) l)).
(** FuseViewFixFunction, lines 118-160: the buffer with the fixed labels and those of the others. *)
Fixpoint fix_buffer (A B vs l : list nat) : list nat :=
  match vs with
  | [] => []
  | v :: vs => if nth v A 0 =? nth v B 0 then nth v A 0 :: fix_buffer A B vs l
               else (if hd 0 l =? 0 then nth v A 0 else nth v B 0) :: fix_buffer A B vs (tl l)
  end.
Definition FuseViewFixFunction (A B : list nat) (fc : list nat * (list nat -> T)) (l : list nat) : T := snd fc (fix_buffer A B (fst fc) l).

(** fillSubModel, lines 758-855: one factor [fi] of the variable [vi] with local index [lvi]; the state is addedFactors and
    the factors of the model. *)
Definition fm_addFactor (m : fmover) (lvi vi : nat) (st : list nat * list (list nat * (list nat -> T))) (fi : nat) : outcome (list nat * list (list nat * (list nat -> T))) :=
  fc <- rd (v_factors g) fi ;;
  if length (fst fc) =? 1 then
    Ret (fst st, snd st ++ [([lvi], fun l => if hd 0 l =? 0 then snd fc [nth vi (fm_A m) 0] else snd fc [nth vi (fm_B m) 0])])
  else if existsb (Nat.eqb fi) (fst st) then Ret st
  else
    let free v := negb (nth v (fm_A m) 0 =? nth v (fm_B m) 0) in
    if forallb free (fst fc) then
      lvis <- mapM (rd (fm_g2l m)) (fst fc) ;; Ret (fi :: fst st, snd st ++ [(lvis, FuseViewFunction (fm_A m) (fm_B m) fc)])
    else
      lvis <- mapM (rd (fm_g2l m)) (filter free (fst fc)) ;; Ret (fi :: fst st, snd st ++ [(lvis, FuseViewFixFunction (fm_A m) (fm_B m) fc)]).
(** fillSubModel, lines 743-859, with NativeModelProxy (lines 185-207). *)
Definition fm_subModel (m : fmover) : outcome (gmv T) :=
  if fm_n m =? 0 then Throw
  else
    st <- foldM (fun st lvi => vi <- rd (fm_l2g m) lvi ;; foldM (fm_addFactor m lvi vi) (v_adj T g vi) st) (seq 0 (fm_n m)) ([], []) ;;
    Ret (mkGmv (repeat 2 (fm_n m)) (snd st)).

(** Lines 902-907, 948-953, 993-1005 and 1125-1137: the labels of the result; other labels than 0 and 1 only in the last two. *)
Definition fm_assign (m : fmover) (label : nat -> outcome (option bool)) : outcome (list nat) :=
  foldM (fun res lvi =>
           gvi <- rd (fm_l2g m) lvi ;;
           l <- label lvi ;;
           x <- (match l with Some false => rd (fm_A m) gvi | Some true => rd (fm_B m) gvi | None => rd (fm_best m) gvi end) ;;
           wr res gvi x) (seq 0 (fm_n m)) (fm_res m).
(** Lines 908-913, 954-960, 1006-1011 and 1138-1143: the value and the comparison with the better argument. *)
Definition fm_finish (m : fmover) (res : list nat) : outcome (T * list nat) :=
  v <- v_evaluate T OP g res ;;
  if a_bop ACC (fm_vBest m) v then r <- copy_into (fm_best m) res ;; Ret (fm_vBest m, r) else Ret (v, res).

(** fuse, lines 880-921. *)
Definition bsolver : Type := gmv T -> option (list nat) -> outcome (option (list nat)).
Definition fm_fuse (solver : bsolver) (warmStart : bool) (m : fmover) : outcome (T * list nat) :=
  sub <- fm_subModel m ;;
  r <- solver sub (if warmStart then Some (repeat (fm_bestLabel m) (fm_n m)) else None) ;;
  match r with
  | Some localArg => res <- fm_assign m (fun lvi => l <- rd localArg lvi ;; Ret (Some (negb (l =? 0)))) ;; fm_finish m res
  | None => Ret (fm_vBest m, fm_res m)
  end.

(** QpboModelProxy, lines 210-266: the terms of the quadratic energy. *)
Inductive qpterm : Type := PUnary (v : nat) (e0 e1 : T) | PPair (v w : nat) (e00 e01 e10 e11 : T).
Definition fm_qpterm (fc : list nat * (list nat -> T)) : outcome qpterm :=
  match fst fc with
  | [v] => Ret (PUnary v (snd fc [0]) (snd fc [1]))
  | [v; w] => Ret (PPair v w (snd fc [0; 0]) (snd fc [0; 1]) (snd fc [1; 0]) (snd fc [1; 1]))
  | _ => Throw
  end.
(** fuseQpbo, lines 970-1014; QPBO with Improve is a function of the terms and the label all nodes start with. *)
Definition qpsolver : Type := nat -> list qpterm -> nat -> nat -> option bool.
Definition fm_fuseQpbo (solver : qpsolver) (m : fmover) : outcome (T * list nat) :=
  sub <- fm_subModel m ;;
  terms <- mapM fm_qpterm (v_factors sub) ;;
  res <- fm_assign m (fun lvi => Ret (solver (fm_n m) terms (fm_bestLabel m) lvi)) ;;
  fm_finish m res.

(** HlFusionMover, lines 411-597: the solver is chosen by the parameter and the order of the model. *)
Inductive fusionSolver : Type := QpboFusion | LazyFlipperFusion | CplexFusion.
Record hlsolvers : Type := mkHl { hl_qpbo : qpsolver; hl_hqpbo : bsolver; hl_lf : bsolver; hl_cplex : bsolver }.
Definition hl_order : nat := fold_left (fun m (fc : list nat * (list nat -> T)) => Nat.max m (length (fst fc))) (v_factors g) 0.
(** fuse, lines 528-590; None for false, where valRes is not set. *)
Definition hl_fuse (s : hlsolvers) (kind : fusionSolver) (vs : list nat * list nat) (A B res : list nat) (vA vB : T) : outcome (option T * list nat) :=
  m <- fm_setup vs A B res vA vB ;;
  if 0 <? fm_n m then
    ' (v, r) <- (match kind with
                 | QpboFusion => if hl_order <=? 2 then fm_fuseQpbo (hl_qpbo s) m else fm_fuse (hl_hqpbo s) true m
                 | LazyFlipperFusion => fm_fuse (hl_lf s) true m
                 | CplexFusion => fm_fuse (hl_cplex s) true m
                 end) ;;
    Ret (Some v, r)
  else Ret (None, fm_res m).
End Mover.
Arguments mkFm {T}. Arguments fm_n {T}. Arguments fm_l2g {T}. Arguments fm_g2l {T}. Arguments fm_A {T}. Arguments fm_B {T}. Arguments fm_res {T}. Arguments fm_vA {T}. Arguments fm_vB {T}. Arguments fm_bestB {T}.
Arguments fm_best {T}. Arguments fm_vBest {T}. Arguments fm_bestLabel {T}.
Arguments PUnary {T}. Arguments PPair {T}. Arguments mkHl {T}. Arguments hl_qpbo {T}. Arguments hl_hqpbo {T}. Arguments hl_lf {T}. Arguments hl_cplex {T}.

(** HQPBO as the solver of fuse: constructor, setStartingPoint, infer (which returns NORMAL) and arg. *)
Definition hqpbo_bsolver (solve : qsolver) : bsolver Qc := fun sub start =>
  s <- hq_new sub ;;
  s <- (match start with Some x => hq_setStart sub s x | None => Ret s end) ;;
  s <- hq_infer sub solve s ;;
  Ret (Some (hq_arg s)).

(** fuseFixQpbo, lines 1018-1148: in factors of two and more variables a set bit stands for label 0 (lines 1080-1090), in
    unary factors for label 1 (lines 1046-1056); maxOrder_ is 9. *)
Definition fix_calls (sub : gmv Qc) (c : clique) : outcome (list hoecall) :=
  match fst c with
  | [v] => e0 <- factor_at sub c [0] ;; e1 <- factor_at sub c [1] ;; Ret [CUnary v (e1 - e0)%Qc]
  | _ => clique_calls 9 (factor_at sub) (fun _ => Ret 1) (fun _ => Ret 0) c
  end.
Definition fm_fuseFixQpbo (OP : oper Qc) (ACC : accum Qc) (g : gmv Qc) (solve : qsolver) (m : fmover Qc) : outcome (Qc * list nat) :=
  sub <- fm_subModel Qc g m ;;
  css <- mapM (fix_calls sub) (v_factors sub) ;;
  h <- hoe_run 9 (CVars (length (v_labels sub)) :: concat css) ;;
  ' (_, q) <- ToQuadratic 9 h quad_new ;;
  res <- fm_assign Qc m (fun lvi => Ret (solve q lvi)) ;;
  fm_finish Qc OP ACC g m res.
