(** AlphaBetaSwap with GraphCut as its INF: include/opengm/inference/alphabetaswap.hxx.

    Values are integers, INF is GraphCut with the max-flow oracle [cut] (GraphCutModel.v); [maxi] says whether its
    accumulation is Maximizer.  Reading a factor at a label its variable does not have is undefined behaviour.  The
    visitor is a function [stop]: whether its call number n within one infer asks to end; begin and end of the visitor
    have no influence.  The product in line 219 does not overflow here. *)
From Verif Require Import Base Values GmView GraphCutModel.
Local Open Scope Z_scope.

Section Swap.
Variable maxi : bool.
Variable cut : nat -> list edge -> list bool.
Variable g : gmv Z.

(** gm_[k](labels), checked against the shape of the factor. *)
Definition fread (fc : factor) (l : list nat) : outcome Z :=
  if forallb (fun p => (snd p <? nth (fst p) (v_labels g) 0)%nat) (combine (fst fc) l) then Ret (snd fc l) else Undef.
(** AccumulationType::bop. *)
Definition bopZ (a b : Z) : bool := if maxi then b <? a else a <? b.

(** The members label_, alpha_ and beta_, lines 66-68. *)
Record sw : Type := mkSw { sw_label : list nat; sw_alpha : nat; sw_beta : nat }.
Definition sw_numVar : nat := length (v_labels g).
(** maxState_, lines 127-132. *)
Definition sw_maxState : nat := fold_left (fun m k => if (m <? k)%nat then k else m) (v_labels g) 0%nat.

(** The constructor, lines 110-133. *)
Definition sw_new : outcome sw :=
  if existsb (fun fc : factor => (2 <? length (fst fc))%nat) (v_factors g) then Throw else Ret (mkSw (repeat 0%nat sw_numVar) 0 0).
(** reset, lines 76-82. *)
Definition sw_reset (s : sw) : sw := mkSw (repeat 0%nat (length (sw_label s))) 0 0.
(** setStartingPoint, lines 135-147. *)
Definition sw_setStart (s : sw) (x : list nat) : outcome sw :=
  label <- mapM (rd x) (seq 0 sw_numVar) ;; Ret (mkSw label (sw_alpha s) (sw_beta s)).

(** increment, lines 84-96. *)
Definition increment (alpha beta : nat) : nat * nat :=
  let beta := S beta in
  if (sw_maxState <=? beta)%nat then
    let alpha := S alpha in
    let alpha := if (sw_maxState - 1 <=? alpha)%nat then 0%nat else alpha in
    (alpha, (alpha + 1)%nat)
  else (alpha, beta).

(** addUnary and addPairwise, lines 149-187: the factor given to addFactor of INF. *)
Definition unary2 (var : nat) (v0 v1 : Z) : factor := ([var], fun l => if (nth 0 l 0 =? 0)%nat then v0 else v1).
Definition pair2 (var1 var2 : nat) (v0 v1 v2 v3 : Z) : factor :=
  ([var1; var2], fun l => if (nth 0 l 0 =? 0)%nat then if (nth 1 l 0 =? 0)%nat then v0 else v1 else if (nth 1 l 0 =? 0)%nat then v2 else v3).

Section Move.
Variables alpha beta : nat.
(** label_[i] == alpha_ || label_[i] == beta_. *)
Definition sel (l : nat) : bool := ((l =? alpha) || (l =? beta))%nat.

(** Lines 222-228. *)
Definition number_nodes (label v2n : list nat) : outcome (list nat * nat) :=
  foldM (fun st i => l <- rd label i ;; if sel l then v <- wr (fst st) i (snd st) ;; Ret (v, S (snd st)) else Ret st) (seq 0 sw_numVar) (v2n, 0%nat).

(** The body of the loop over the factors, lines 248-276: the factors added to INF (at most one). *)
Definition swap_factor (label v2n : list nat) (fc : factor) : outcome (list factor) :=
  match fst fc with
  | [var] =>
      node <- rd v2n var ;;
      l <- rd label var ;;
      if sel l then a <- fread fc [alpha] ;; b <- fread fc [beta] ;; Ret [unary2 node a b] else Ret []
  | [var1; var2] =>
      node1 <- rd v2n var1 ;;
      node2 <- rd v2n var2 ;;
      l1 <- rd label var1 ;;
      l2 <- rd label var2 ;;
      if sel l1 && sel l2 then
        aa <- fread fc [alpha; alpha] ;; ab <- fread fc [alpha; beta] ;; ba <- fread fc [beta; alpha] ;; bb <- fread fc [beta; beta] ;;
        Ret [pair2 node1 node2 aa ab ba bb]
      else if sel l1 && negb (sel l2) then ax <- fread fc [alpha; l2] ;; bx <- fread fc [beta; l2] ;; Ret [unary2 node1 ax bx]
      else if sel l2 && negb (sel l1) then xa <- fread fc [l1; alpha] ;; xb <- fread fc [l1; beta] ;; Ret [unary2 node2 xa xb]
      else Ret []
  | _ => Ret []
  end.
(** Line 232 (the parameter parameter_.parameter_ is not passed, so the scale is 1 and the tolerance 0) and lines 247-277. *)
Definition swap_graph (label v2n : list nat) (counter : nat) : outcome gc :=
  foldM (fun inf fc => fs <- swap_factor label v2n fc ;; foldM (gc_addFactor maxi) fs inf) (v_factors g) (gc_create counter [0; 0; 0; 0]%nat 1 0).
(** Lines 282-291; each round of the loop writes only the label it has read. *)
Definition swap_labels (label v2n state : list nat) : outcome (list nat) :=
  mapM (fun var => l <- rd label var ;;
                   if sel l then node <- rd v2n var ;; st <- rd state node ;; Ret (if (st =? 0)%nat then alpha else beta) else Ret l) (seq 0 sw_numVar).
End Move.

(** The loop of infer, lines 220-302; [iters] is maxNumberOfIterations_ minus it, [calls] counts calls of the visitor. *)
Variable stop : nat -> bool.
Definition numberOfLabelPairs : nat := (sw_maxState * (sw_maxState - 1) / 2)%nat.
Fixpoint sw_loop (iters calls : nat) (s : sw) (v2n : list nat) (energy : Z) (countUnchanged : nat) (exitInf : bool) : outcome sw :=
  match iters with
  | 0%nat => Ret s
  | S iters =>
      if (countUnchanged <? numberOfLabelPairs)%nat && negb exitInf then
        let (alpha, beta) := increment (sw_alpha s) (sw_beta s) in
        let s := mkSw (sw_label s) alpha beta in
        st <- number_nodes alpha beta (sw_label s) v2n ;;
        let (v2n, counter) := st : list nat * nat in
        if (counter =? 0)%nat then sw_loop iters calls s v2n energy countUnchanged exitInf
        else
          inf <- swap_graph alpha beta (sw_label s) v2n counter ;;
          state <- gc_arg (gc_infer cut inf) ;;
          label <- swap_labels alpha beta (sw_label s) v2n state ;;
          let s := mkSw label alpha beta in
          energy2 <- v_evaluate Z AdderZ g label ;;
          let exitInf := stop calls in
          if bopZ energy2 energy then sw_loop iters (S calls) s v2n energy2 countUnchanged exitInf
          else sw_loop iters (S calls) s v2n energy (S countUnchanged) exitInf
      else Ret s
  end.
(** infer, lines 195-305. *)
Definition sw_infer (maxNumberOfIterations : nat) (s : sw) : outcome sw :=
  energy <- v_evaluate Z AdderZ g (sw_label s) ;;
  sw_loop maxNumberOfIterations 0 s (repeat 0%nat sw_numVar) energy 0 false.
(** arg for n = 1, lines 307-319. *)
Definition sw_arg (s : sw) : list nat := sw_label s.
End Swap.

(** Calls on an AlphaBetaSwap object. *)
Inductive swop : Type := SInfer (stop : nat -> bool) | SReset | SStart (x : list nat).
Definition swstep (maxi : bool) (cut : nat -> list edge -> list bool) (g : gmv Z) (maxNumberOfIterations : nat) (s : sw) (o : swop) : outcome sw :=
  match o with
  | SInfer stop => sw_infer maxi cut g stop maxNumberOfIterations s
  | SReset => Ret (sw_reset s)
  | SStart x => sw_setStart g s x
  end.
