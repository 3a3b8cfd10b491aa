(** AlphaExpansion with GraphCut as its INF: include/opengm/inference/alphaexpansion.hxx.

    As in AlphaBetaSwapModel.v, values are integers, the max-flow library is an oracle [cut], [maxi] says whether the
    accumulation is Maximizer, reading a factor at a label that does not exist is undefined behaviour, and the visitor
    is a function [stop] of the number of its call.  [infinity] is std::numeric_limits<ValueType>::infinity(), any
    number.  [rnd i] is the result of the i-th rand() after srand(randSeedLabel_), [shuffled] the result of
    srand(randSeedOrder_) and random_shuffle; both are the same at every call, as the seeds are. *)
From Verif Require Import Base Values GmView GraphCutModel AlphaBetaSwapModel.
Local Open Scope Z_scope.

(** Parameter::labelInitialType_ with label_, Parameter::orderType_ with labelOrder_, lines 39-40 and 78-79. *)
Inductive initType : Type := DEFAULT_LABEL | RANDOM_LABEL | LOCALOPT_LABEL | EXPLICIT_LABEL (label : list nat).
Inductive orderType : Type := DEFAULT_ORDER | RANDOM_ORDER | EXPLICIT_ORDER (labelOrder : list nat).
(** The members, lines 98-102. *)
Record ae : Type := mkAe { ae_label : list nat; ae_list : list nat; ae_alpha : nat; ae_counter : nat }.

Section Expansion.
Variable maxi : bool.
Variable cut : nat -> list edge -> list bool.
Variable g : gmv Z.
Variable infinity : Z.
Variable rnd : nat -> nat.
Variable shuffled : list nat.
Definition ae_numVar : nat := length (v_labels g).
(** Lines 169-174. *)
Definition ae_maxState : nat := fold_left (fun m k => if (m <? k)%nat then k else m) (v_labels g) 0%nat.

(** setInitialLabelRandom, lines 483-494. *)
Definition initialLabelRandom : outcome (list nat) := mapM (fun i => k <- rd (v_labels g) i ;; Ret (rnd i mod k)%nat) (seq 0 ae_numVar).
(** setInitialLabelLocalOptimal, lines 464-481: the index of a factor is used as the index of a variable.  The vector
    keeps its size and its labels. *)
Definition localOptimal_factor (label : list nat) (i : nat) : outcome (list nat) :=
  fc <- rd (v_factors g) i ;;
  if (length (fst fc) =? 1)%nat then
    value <- fread g fc [0%nat] ;;
    k <- rd (v_labels g) i ;;
    st <- foldM (fun (st : list nat * Z) l =>
                   v <- fread g fc [l] ;;
                   if bopZ maxi v (snd st) then label <- wr (fst st) i l ;; Ret (label, v) else Ret st) (seq 1 (k - 1)) (label, value) ;;
    Ret (fst st)
  else Ret label.
Definition initialLabelLocalOptimal (label : list nat) : outcome (list nat) := foldM localOptimal_factor (seq 0 (length (v_factors g))) label.
(** setInitialLabel, lines 447-462. *)
Definition initialLabelExplicit (label l : list nat) : outcome (list nat) :=
  if (length l =? length label)%nat then
    bad <- foldM (fun bad i => if bad : bool then Ret true else x <- rd l i ;; k <- rd (v_labels g) i ;; Ret (k <=? x)%nat) (seq 0 (length l)) false ;;
    if bad : bool then Ret label else Ret l
  else Ret label.
(** Resizing label_ to the number of variables keeps existing labels and adds zeros. *)
Definition resize_label (label : list nat) : list nat := firstn ae_numVar label ++ repeat 0%nat (ae_numVar - length label).
(** Lines 176-187 and, for reset, 211-222; [first] says whether it is the constructor. *)
Definition init_labels (it : initType) (first : bool) (label : list nat) : outcome (list nat) :=
  match it with
  | RANDOM_LABEL => initialLabelRandom
  | LOCALOPT_LABEL => initialLabelLocalOptimal (resize_label label)
  | EXPLICIT_LABEL l => initialLabelExplicit (resize_label label) l
  | DEFAULT_LABEL => Ret (if first then resize_label label else repeat 0%nat (length label))
  end.
(** Lines 190-200 and, for reset, 225-234: setLabelOrder (422-431) ignores an order of another length. *)
Definition init_order (ot : orderType) (l : list nat) : list nat :=
  match ot with
  | RANDOM_ORDER => shuffled
  | EXPLICIT_ORDER o => if (length o =? ae_maxState)%nat then o else l
  | DEFAULT_ORDER => seq 0 ae_maxState
  end.
(** The constructor, lines 153-204. *)
Definition ae_new (it : initType) (ot : orderType) : outcome ae :=
  if existsb (fun fc : factor => (2 <? length (fst fc))%nat) (v_factors g) then Throw
  else
    label <- init_labels it true [] ;;
    let l := init_order ot [] in
    alpha <- rd l 0 ;; Ret (mkAe label l alpha 0).
(** reset, lines 208-237. *)
Definition ae_reset (it : initType) (ot : orderType) (s : ae) : outcome ae :=
  label <- init_labels it false (ae_label s) ;;
  let l := init_order ot (ae_list s) in
  alpha <- rd l 0 ;; Ret (mkAe label l alpha 0).
(** setStartingPoint, lines 139-151, and setState, lines 127-137. *)
Definition ae_setStart (s : ae) (x : list nat) : outcome ae :=
  label <- mapM (rd x) (seq 0 ae_numVar) ;; Ret (mkAe label (ae_list s) (ae_alpha s) (ae_counter s)).
Definition ae_setState (s : ae) (x : list nat) : ae := mkAe x (ae_list s) (ae_alpha s) (ae_counter s).
(** incrementAlpha, lines 496-501. *)
Definition incrementAlpha (s : ae) : outcome ae :=
  let counter := ((ae_counter s + 1) mod ae_maxState)%nat in
  alpha <- rd (ae_list s) counter ;; Ret (mkAe (ae_label s) (ae_list s) alpha counter).

Section Move.
Variable alpha : nat.
Variable label : list nat.
(** Lines 308-318. *)
Definition count_auxiliary : outcome nat :=
  foldM (fun c (fc : factor) =>
    match fst fc with
    | [var1; var2] => l1 <- rd label var1 ;; l2 <- rd label var2 ;;
        Ret (if negb (l1 =? l2)%nat && negb (l1 =? alpha)%nat && negb (l2 =? alpha)%nat then S c else c)
    | _ => Ret c
    end) (v_factors g) 0%nat.
(** Lines 319-328: INF and the number of variables labeled alpha_. *)
Definition alpha_graph (scale : Z) (aux : nat) : outcome (gc * nat) :=
  foldM (fun (st : gc * nat) k => l <- rd label k ;;
    if (l =? alpha)%nat then inf <- gc_addFactor maxi (fst st) (unary2 k 0 infinity) ;; Ret (inf, S (snd st)) else Ret st)
    (seq 0 ae_numVar) (gc_create (ae_numVar + aux) [0; 0; 0; 0]%nat scale 0, 0%nat).
(** The body of the loop over the factors, lines 331-367: the factors added to INF and the next auxiliary node. *)
Definition expand_factor (varX : nat) (fc : factor) : outcome (list factor * nat) :=
  match fst fc with
  | [var] => l <- rd label var ;;
      if negb (l =? alpha)%nat then a <- fread g fc [alpha] ;; x <- fread g fc [l] ;; Ret ([unary2 var a x], varX) else Ret ([], varX)
  | [var1; var2] => l1 <- rd label var1 ;; l2 <- rd label var2 ;;
      if (l1 =? alpha)%nat && (l2 =? alpha)%nat then Ret ([], varX)
      else if (l1 =? alpha)%nat then aa <- fread g fc [alpha; alpha] ;; ax <- fread g fc [alpha; l2] ;; Ret ([unary2 var2 aa ax], varX)
      else if (l2 =? alpha)%nat then aa <- fread g fc [alpha; alpha] ;; xa <- fread g fc [l1; alpha] ;; Ret ([unary2 var1 aa xa], varX)
      else
        aa <- fread g fc [alpha; alpha] ;; ax <- fread g fc [alpha; l2] ;; xa <- fread g fc [l1; alpha] ;; xx <- fread g fc [l1; l2] ;;
        if (l1 =? l2)%nat then Ret ([pair2 var1 var2 aa ax xa xx], varX)
        else Ret ([pair2 var1 varX 0 ax 0 0; pair2 var2 varX 0 xa 0 0; unary2 varX aa xx], S varX)
  | _ => Ret ([], varX)
  end.
(** Lines 373-378. *)
Definition expand_labels (state : list nat) : outcome (list nat) :=
  mapM (fun var => l <- rd label var ;;
    if negb (l =? alpha)%nat then st <- rd state var ;; Ret (if (st =? 0)%nat then alpha else l) else Ret l) (seq 0 ae_numVar).
(** Lines 308-379: one move. *)
Definition expand (scale : Z) : outcome (list nat) :=
  aux <- count_auxiliary ;;
  st <- alpha_graph scale aux ;;
  if (snd st <? ae_numVar)%nat then
    st <- foldM (fun (st : gc * nat) fc => p <- expand_factor (snd st) fc ;; inf <- foldM (gc_addFactor maxi) (fst p) (fst st) ;; Ret (inf, snd p))
            (v_factors g) (fst st, ae_numVar) ;;
    state <- gc_arg (gc_infer cut (fst st)) ;;
    expand_labels state
  else Ret label.
End Move.

Variable stop : nat -> bool.
(** The loop of infer, lines 307-396; [steps] is maxNumberOfSteps_ minus it, [calls] counts calls of the visitor. *)
Fixpoint ae_loop (scale : Z) (steps calls : nat) (s : ae) (energy : Z) (countUnchanged : nat) (exitInf : bool) : outcome ae :=
  match steps with
  | 0%nat => Ret s
  | S steps =>
      if (countUnchanged <? ae_maxState)%nat && negb exitInf then
        label <- expand (ae_alpha s) (ae_label s) scale ;;
        energy2 <- v_evaluate Z AdderZ g label ;;
        s <- incrementAlpha (mkAe label (ae_list s) (ae_alpha s) (ae_counter s)) ;;
        if bopZ maxi energy2 energy then ae_loop scale steps (S calls) s energy2 0 (stop calls)
        else ae_loop scale steps (S calls) s energy (S countUnchanged) (stop calls)
      else Ret s
  end.
(** infer, lines 286-399. *)
Definition ae_infer (scale : Z) (maxNumberOfSteps : nat) (s : ae) : outcome ae :=
  energy <- v_evaluate Z AdderZ g (ae_label s) ;; ae_loop scale maxNumberOfSteps 0 s energy 0 false.
(** arg for n = 1, lines 401-420. *)
Definition ae_arg (s : ae) : list nat := ae_label s.
End Expansion.

(** Calls on an AlphaExpansion object. *)
Inductive aeop : Type := AInfer (stop : nat -> bool) | AReset | AStart (x : list nat) | AState (x : list nat).
Record aeparam : Type := mkAeParam { ap_init : initType; ap_order : orderType; ap_scale : Z; ap_steps : nat; ap_rnd : nat -> nat; ap_shuffled : list nat; ap_infinity : Z }.
Definition aestep (maxi : bool) (cut : nat -> list edge -> list bool) (g : gmv Z) (p : aeparam) (s : ae) (o : aeop) : outcome ae :=
  match o with
  | AInfer stop => ae_infer maxi cut g (ap_infinity p) stop (ap_scale p) (ap_steps p) s
  | AReset => ae_reset maxi g (ap_rnd p) (ap_shuffled p) (ap_init p) (ap_order p) s
  | AStart x => ae_setStart g s x
  | AState x => Ret (ae_setState s x)
  end.
