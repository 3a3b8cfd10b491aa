(** AlphaExpansionFusion: include/opengm/inference/alphaexpansionfusion.hxx, with the energy of FuseModel.v.

    As in AlphaExpansionModel.v: [rnd i] is the result of the i-th rand() after srand(randSeedLabel_), [shuffled] the result
    of srand(randSeedOrder_) and random_shuffle, the visitor is a function [stop] of the number of its call, and reading a
    factor at a label that does not exist is undefined.  [maxi] says whether the accumulation is Maximizer. *)
From Coq Require Import QArith Qcanon.
From Verif Require Import Base GmView HoeModel FuseModel HqpboModel.
Open Scope nat_scope.

(** Parameter::labelInitialType_ with label_, Parameter::orderType_ with labelOrder_, lines 42-45 and 80-81. *)
Inductive initType : Type := DEFAULT_LABEL | RANDOM_LABEL | LOCALOPT_LABEL | EXPLICIT_LABEL (label : list nat).
Inductive orderType : Type := DEFAULT_ORDER | RANDOM_ORDER | EXPLICIT_ORDER (labelOrder : list nat).
(** The members, lines 99-104. *)
Record aef : Type := mkAef { af_label : list nat; af_list : list nat; af_alpha : nat; af_counter : nat }.
Record aefparam : Type := mkAefParam { fp_init : initType; fp_order : orderType; fp_steps : nat; fp_rnd : nat -> nat; fp_shuffled : list nat }.

Section Fusion.
Variable maxi : bool.
Variable g : gmv Qc.
Variable p : aefparam.
Definition af_numVar : nat := length (v_labels g).
(** Lines 173-178. *)
Definition af_maxState : nat := fold_left (fun m k => if m <? k then k else m) (v_labels g) 0.
(** AccumulationType::bop. *)
Definition bopQ (a b : Qc) : bool := if maxi then qpos (a - b)%Qc else qpos (b - a)%Qc.

(** setInitialLabelRandom, lines 580-591. *)
Definition initialLabelRandom : outcome (list nat) := mapM (fun i => k <- rd (v_labels g) i ;; Ret (fp_rnd p i mod k)) (seq 0 af_numVar).
(** setInitialLabelLocalOptimal, lines 561-578: the index of a factor is used as the index of a variable. *)
Definition localOptimal_factor (label : list nat) (i : nat) : outcome (list nat) :=
  fc <- rd (v_factors g) i ;;
  if length (fst fc) =? 1 then
    value <- factor_at g fc [0] ;;
    k <- rd (v_labels g) i ;;
    st <- foldM (fun (st : list nat * Qc) l =>
                   v <- factor_at g fc [l] ;;
                   if bopQ v (snd st) then label <- wr (fst st) i l ;; Ret (label, v) else Ret st) (seq 1 (k - 1)) (label, value) ;;
    Ret (fst st)
  else Ret label.
Definition initialLabelLocalOptimal (label : list nat) : outcome (list nat) := foldM localOptimal_factor (seq 0 (length (v_factors g))) label.
(** setInitialLabel, lines 544-559. *)
Definition initialLabelExplicit (label l : list nat) : outcome (list nat) :=
  if length l =? length label then
    bad <- foldM (fun bad i => if bad : bool then Ret true else x <- rd l i ;; k <- rd (v_labels g) i ;; Ret (k <=? x)) (seq 0 (length l)) false ;;
    if bad : bool then Ret label else Ret l
  else Ret label.
(** Resizing label_ to the number of variables keeps existing labels and adds zeros. *)
Definition resize_label (label : list nat) : list nat := firstn af_numVar label ++ repeat 0 (af_numVar - length label).
(** Lines 180-191 and, for reset, 215-226; [first] says whether it is the constructor. *)
Definition init_labels (first : bool) (label : list nat) : outcome (list nat) :=
  match fp_init p with
  | RANDOM_LABEL => initialLabelRandom
  | LOCALOPT_LABEL => initialLabelLocalOptimal (resize_label label)
  | EXPLICIT_LABEL l => initialLabelExplicit (resize_label label) l
  | DEFAULT_LABEL => Ret (if first then resize_label label else repeat 0 (length label))
  end.
(** Lines 194-204 and, for reset, 229-238: setLabelOrder (519-528) ignores an order of another length. *)
Definition init_order (l : list nat) : list nat :=
  match fp_order p with
  | RANDOM_ORDER => fp_shuffled p
  | EXPLICIT_ORDER o => if length o =? af_maxState then o else l
  | DEFAULT_ORDER => seq 0 af_maxState
  end.
(** The constructor, lines 157-208; maxOrder_ is 10. *)
Definition af_new : outcome aef :=
  if existsb (fun fc : clique => 10 <? length (fst fc)) (v_factors g) then Throw
  else label <- init_labels true [] ;; let l := init_order [] in alpha <- rd l 0 ;; Ret (mkAef label l alpha 0).
(** reset, lines 212-241. *)
Definition af_reset (s : aef) : outcome aef :=
  label <- init_labels false (af_label s) ;; let l := init_order (af_list s) in alpha <- rd l 0 ;; Ret (mkAef label l alpha 0).
(** setStartingPoint, lines 143-155, and setState, lines 131-141. *)
Definition af_setStart (s : aef) (x : list nat) : outcome aef :=
  label <- mapM (rd x) (seq 0 af_numVar) ;; Ret (mkAef label (af_list s) (af_alpha s) (af_counter s)).
Definition af_setState (s : aef) (x : list nat) : aef := mkAef x (af_list s) (af_alpha s) (af_counter s).
(** incrementAlpha, lines 593-598. *)
Definition incrementAlpha (s : aef) : outcome aef :=
  let counter := (af_counter s + 1) mod af_maxState in
  alpha <- rd (af_list s) counter ;; Ret (mkAef (af_label s) (af_list s) alpha counter).

(** Lines 304-381: one move, and numberOfChangedVariables. *)
Definition af_move (solve : qsolver) (alpha : nat) (label : list nat) : outcome (list nat * nat) :=
  h <- setup_energy 10 (factor_at g) (rd label) (fun _ => Ret alpha) af_numVar (v_factors g) ;;
  ' (_, q) <- ToQuadratic 10 h quad_new ;;
  foldM (fun st i => match solve q i with Some true => label <- wr (fst st) i alpha ;; Ret (label, S (snd st)) | _ => Ret st end)
    (seq 0 af_numVar) (label, 0).
(** Lines 303-397: the loop of infer; [steps] is maxNumberOfSteps_ minus it, [calls] counts the calls of the visitor. *)
Fixpoint af_loop (solve : qsolver) (stop : nat -> bool) (steps calls : nat) (s : aef) (countUnchanged : nat) (exitInf : bool) : outcome (aef * nat) :=
  match steps with
  | 0 => Ret (s, calls)
  | S steps =>
      if (countUnchanged <? af_maxState) && negb exitInf then
        ' (label, changed) <- af_move solve (af_alpha s) (af_label s) ;;
        let countUnchanged := if 0 <? changed then 0 else S countUnchanged in
        s <- incrementAlpha (mkAef label (af_list s) (af_alpha s) (af_counter s)) ;;
        af_loop solve stop steps (S calls) s countUnchanged (stop calls)
      else Ret (s, calls)
  end.
(** infer, lines 280-400; with the number of calls of the visitor. *)
Definition af_infer (solve : qsolver) (stop : nat -> bool) (s : aef) : outcome (aef * nat) := af_loop solve stop (fp_steps p) 0 s 0 false.
(** arg for n = 1, lines 498-517. *)
Definition af_arg (s : aef) : list nat := af_label s.

(** Calls on an AlphaExpansionFusion object. *)
Inductive afop : Type := FInfer (stop : nat -> bool) | FReset | FStart (x : list nat) | FState (x : list nat).
Definition af_step (solve : qsolver) (s : aef) (o : afop) : outcome aef :=
  match o with
  | FInfer stop => ' (s, _) <- af_infer solve stop s ;; Ret s
  | FReset => af_reset s
  | FStart x => af_setStart s x
  | FState x => Ret (af_setState s x)
  end.
Definition af_run (solve : qsolver) (ops : list afop) : outcome aef := s <- af_new ;; foldM (af_step solve) ops s.
End Fusion.
