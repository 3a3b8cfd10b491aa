(** Model of inference/dmc.hxx (DMC), with the Partition of PartitionModel.v; values are exact rationals.
    The inference INF is a function [solve] from the model it is given to its labeling.
    Simplified: the internal check of lines 253-255, which cannot fail, is left out with its calls of find; the visitor is EmptyVisitor. *)
From Coq Require Import QArith Qcanon.
From Verif Require Import Base Values GmView PartitionModel ConstraintModel DualDecompModel.
Open Scope nat_scope.

Section Dmc.
Variable gm : gmv Qc.
Variable solve : gmv Qc -> outcome (list nat).
(** Parameter, 36-49 *)
Variable threshold : Qc.
Let numVar := length (v_labels gm).
Let numFac := length (v_factors gm).

(** gm_[fi](l): outside of the factor's shape the function reads beyond its end *)
Definition dm_at (fc : list nat * (list nat -> Qc)) (l : list nat) : outcome Qc :=
  sh <- mapM (rd (v_labels gm)) (fst fc) ;;
  if forallb (fun p => fst p <? snd p) (combine l sh) then Ret (snd fc l) else Undef.
(** 147-149 and 247-249 *)
Definition dm_weight (fc : list nat * (list nat -> Qc)) : outcome Qc :=
  val00 <- dm_at fc [0; 0] ;; val01 <- dm_at fc [0; 1] ;; Ret (val01 - val00)%Qc.
(** 142-160, the decomposition *)
Definition dm_decompose : outcome partition :=
  foldM (fun ufd fi =>
    fc <- rd (v_factors gm) fi ;;
    if length (fst fc) =? 2 then
      weight <- dm_weight fc ;;
      if Qc_lt threshold weight then vi0 <- rd (fst fc) 0 ;; vi1 <- rd (fst fc) 1 ;; part_merge ufd vi0 vi1 else Ret ufd
    else Throw)
  (seq 0 numFac) (part_init numVar).
(** 179-183, the variables of each set *)
Definition dm_subVar (ufd : partition) (repr : list (nat * nat)) : outcome (partition * list (list nat)) :=
  foldM (fun '(ufd, subVar) vi =>
    ' (ufd, r) <- part_find ufd vi ;;
    let k := map_at repr r in
    l <- rd subVar k ;; subVar <- wr subVar k (l ++ [vi]) ;; Ret (ufd, subVar))
  (seq 0 numVar) (ufd, repeat [] (numberOfSets ufd)).
(** 187-200, factors between different sets are marked as used *)
Definition dm_mark (ufd : partition) : outcome (partition * list bool) :=
  foldM (fun '(ufd, used) fi =>
    fc <- rd (v_factors gm) fi ;;
    vi0 <- rd (fst fc) 0 ;; vi1 <- rd (fst fc) 1 ;;
    ' (ufd, r0) <- part_find ufd vi0 ;; ' (ufd, r1) <- part_find ufd vi1 ;;
    used <- (if negb (r0 =? r1) then wr used fi true else Ret used) ;; Ret (ufd, used))
  (seq 0 numFac) (ufd, repeat false numFac).
(** 257-262, one factor of a submodel: a PottsFunction of the local variables *)
Definition dm_factor (g2l : list nat) (fc : list nat * (list nat -> Qc)) : outcome (list nat * (list nat -> Qc)) :=
  weight <- dm_weight fc ;;
  vi0 <- rd (fst fc) 0 ;; vi1 <- rd (fst fc) 1 ;;
  l0 <- rd g2l vi0 ;; l1 <- rd g2l vi1 ;;
  Ret ([Nat.min l0 l1; Nat.max l0 l1], fun l => if nth 0 l 0 =? nth 1 l 0 then 0%Qc else weight).
(** 243-264, the body of the loop over the factors of a variable *)
Definition dm_visit (g2l : list nat) (st : list bool * list (list nat * (list nat -> Qc))) (nfi : nat) : outcome (list bool * list (list nat * (list nat -> Qc))) :=
  let '(used, facs) := st in
  u <- rd used nfi ;;
  if u then Ret (used, facs)
  else
    used <- wr used nfi true ;;
    fc <- rd (v_factors gm) nfi ;;
    f <- dm_factor g2l fc ;;
    Ret (used, facs ++ [f]).
(** 213-266, the submodel of one set *)
Definition dm_subModel (g2l vars : list nat) (used : list bool) : outcome (list bool * gmv Qc) :=
  ' (used, facs) <- foldM (fun st lvi =>
      gvi <- rd vars lvi ;; l <- rd g2l gvi ;;
      if lvi =? l then foldM (dm_visit g2l) (v_adj Qc gm gvi) st else Throw)
    (seq 0 (length vars)) (used, []) ;;
  Ret (used, mkGmv (repeat (length vars) (length vars)) facs).
(** 205-283, one set; the state: arg_, usedFactors_, globalToLocal, offset *)
Definition dm_sub (st : list nat * list bool * list nat * nat) (vars : list nat) : outcome (list nat * list bool * list nat * nat) :=
  let '(arg, used, g2l, offset) := st in
  let nSubVar := length vars in
  g2l <- foldM (fun g2l lvi => gvi <- rd vars lvi ;; wr g2l gvi lvi) (seq 0 nSubVar) g2l ;;
  ' (arg, used) <-
    (if nSubVar =? 1 then gvi <- rd vars 0 ;; arg <- wr arg gvi offset ;; Ret (arg, used)
     else if nSubVar =? 2 then
       gvi0 <- rd vars 0 ;; gvi1 <- rd vars 1 ;; arg <- wr arg gvi0 offset ;; arg <- wr arg gvi1 offset ;; Ret (arg, used)
     else
       ' (used, sub) <- dm_subModel g2l vars used ;;
       subArg <- solve sub ;;
       arg <- foldM (fun arg lvi => gvi <- rd vars lvi ;; l <- rd subArg lvi ;; wr arg gvi (l + offset)) (seq 0 nSubVar) arg ;;
       Ret (arg, used)) ;;
  Ret (arg, used, g2l, offset + nSubVar).
(** 128-289, infer: the vector arg_ afterwards.  74-86: the constructor sets it to zeros. *)
Definition dm_infer (arg : list nat) : outcome (list nat) :=
  ufd <- dm_decompose ;;
  if numberOfSets ufd =? 1 then
    arg <- solve gm ;;
    _ <- v_evaluate Qc AdderQ gm arg ;; Ret arg
  else
    repr <- part_representativeLabeling ufd ;;
    ' (ufd, subVar) <- dm_subVar ufd repr ;;
    ' (ufd, used) <- dm_mark ufd ;;
    ' (arg, _, _, _) <- foldM dm_sub subVar (arg, used, repeat (S numVar) numVar, 0) ;;
    _ <- v_evaluate Qc AdderQ gm arg ;; Ret arg.
Definition dm_new : list nat := repeat 0 numVar.
(** 291-309, arg (for N = 1) *)
Definition dm_arg (arg : list nat) : outcome (list nat) := mapM (rd arg) (seq 0 numVar).
(** 61-64, value: the assertion is compiled out *)
Definition dm_value (arg : list nat) : Qc := 0%Qc.
End Dmc.
