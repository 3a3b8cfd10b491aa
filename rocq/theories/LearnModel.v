(** Model of the functions with learnable weights (functions/learnable/lpotts.hxx, lunary.hxx,
    lweightedsum_of_functions.hxx) and of Weights, WeightRegularizer and WeightConstraints (graphicalmodel/weights.hxx).

    The value type's arithmetic is a zero, a sum and a product.  A pointer to Weights is the vector it points to, None where
    the pointer is NULL or not initialised: reading a weight is then undefined.  OPENGM_ASSERT is not modelled,
    OPENGM_CHECK_OP throws.  Label counts and offsets do not overflow. *)
From Verif Require Import Base ShapeSpec IndexingModel UtilModel RandomAccessSetModel FunctionsModel.

(** A function type with weights: setWeights, numberOfWeights, weightIndex, weightGradient beside the function interface. *)
Record learnable (T F : Type) : Type := mkLearnable {
  ln_ft : ftype T F; ln_setWeights : list T -> F -> F; ln_numberOfWeights : F -> nat;
  ln_weightIndex : F -> nat -> outcome nat; ln_weightGradient : F -> nat -> list nat -> outcome T }.
Arguments mkLearnable {T F}. Arguments ln_ft {T F}. Arguments ln_setWeights {T F}. Arguments ln_numberOfWeights {T F}.
Arguments ln_weightIndex {T F}. Arguments ln_weightGradient {T F}.

Section Learn.
Variable T : Type.
Variable zero : T.
Variables add mul : T -> T -> T.

(** weights.hxx 66-69, getWeight through a pointer. *)
Definition getWeight (weights : option (list T)) (i : nat) : outcome T :=
  match weights with Some w => rd w i | None => Undef end.

(** ** LPotts, lpotts.hxx 28-73 *)
Record lpotts : Type := mkLPotts { lp_weights : option (list T); lp_numLabels : nat; lp_weightIDs : list nat; lp_feat : list T }.
(** lpotts.hxx 76-110: the constructors; the second and the third leave the pointer uninitialised. *)
Definition lpotts_new (weights : list T) (numLabels : nat) (weightIDs : list nat) (feat : list T) : lpotts :=
  mkLPotts (Some weights) numLabels weightIDs feat.
Definition lpotts_new_without (numLabels : nat) (weightIDs : list nat) (feat : list T) : lpotts := mkLPotts None numLabels weightIDs feat.
(** lpotts.hxx 53-58. *)
Definition lpotts_setWeights (w : list T) (f : lpotts) : lpotts := mkLPotts (Some w) (lp_numLabels f) (lp_weightIDs f) (lp_feat f).
Definition lpotts_numberOfWeights (f : lpotts) : nat := length (lp_weightIDs f).
Definition lpotts_weightIndex (f : lpotts) (i : nat) : outcome nat := rd (lp_weightIDs f) i.
(** lpotts.hxx 113-125. *)
Definition lpotts_weightGradient (f : lpotts) (i : nat) (c : list nat) : outcome T :=
  x <- rd c 0 ;; y <- rd c 1 ;; if negb (x =? y) then rd (lp_feat f) i else Ret zero.
(** lpotts.hxx 127-139. *)
Definition lpotts_call (f : lpotts) (c : list nat) : outcome T :=
  foldM (fun val i => id <- rd (lp_weightIDs f) i ;; w <- getWeight (lp_weights f) id ;; g <- lpotts_weightGradient f i c ;; Ret (add val (mul w g)))
    (seq 0 (lpotts_numberOfWeights f)) zero.
(** lpotts.hxx 206-227. *)
Definition lpotts_serialize (f : lpotts) : outcome (list nat * list T) :=
  ids <- mapM (lpotts_weightIndex f) (seq 0 (length (lp_weightIDs f))) ;; vs <- mapM (rd (lp_feat f)) (seq 0 (length (lp_feat f))) ;;
  Ret (lp_numLabels f :: length (lp_feat f) :: ids, vs).
(** lpotts.hxx 229-250. *)
Definition lpotts_deserialize (ix : list nat) (vs : list T) (dst : lpotts) : outcome lpotts :=
  n <- rd ix 0 ;; numW <- rd ix 1 ;;
  vals <- mapM (rd vs) (seq 0 numW) ;; ids <- mapM (fun i => rd ix (S (S i))) (seq 0 numW) ;;
  Ret (mkLPotts (lp_weights dst) n ids vals).
(** lpotts.hxx 142-161, 188-204: shape, dimension, size and the lengths of the sequences. *)
Definition lpotts_ft : ftype T lpotts :=
  mkFt (fun _ => 2) (fun f _ => Ret (lp_numLabels f)) (fun f => Z.of_nat (lp_numLabels f * lp_numLabels f)) lpotts_call
       (fun f => 2 + length (lp_weightIDs f)) (fun f => length (lp_feat f)) lpotts_serialize lpotts_deserialize.
Definition lpotts_ln : learnable T lpotts := mkLearnable lpotts_ft lpotts_setWeights lpotts_numberOfWeights lpotts_weightIndex lpotts_weightGradient.

(** ** LUnary, lunary.hxx 31-113 *)
Record lunary : Type := mkLUnary { lu_weights : option (list T); lu_numberOfLabels : nat; lu_offsets : list nat; lu_weightIds : list nat; lu_features : list T }.
(** lunary.hxx 41-50: the default constructor. *)
Definition lunary_default : lunary := mkLUnary None 0 [] [] [].
(** lunary.hxx 92-100. *)
Definition numWeightsForL (f : lunary) (l : nat) : outcome nat := rd (lu_offsets f) (0 * lu_numberOfLabels f + l).
Definition weightIdOffset (f : lunary) (l : nat) : outcome nat := rd (lu_offsets f) (1 * lu_numberOfLabels f + l).
Definition featureOffset (f : lunary) (l : nat) : outcome nat := rd (lu_offsets f) (2 * lu_numberOfLabels f + l).
(** The three assignments to offsets_ in the loops of both constructors. *)
Definition put_offsets (n : nat) (offsets : list nat) (l a b c : nat) : outcome (list nat) :=
  o <- wr offsets (0 * n + l) a ;; o <- wr o (1 * n + l) b ;; wr o (2 * n + l) c.

(** lunary.hxx 115-189: the same features for all labels; [weightIds] has shape rows x cols, given by its rows.
    The checks on the number of dimensions are left out: the arguments have one and two dimensions by their type. *)
Definition lunary_shared (weights : list T) (numberOfLabels : nat) (rows cols : nat) (weightIds : list (list nat)) (features : list T) (makeFirstEntryConst : bool) : outcome lunary :=
  let n := numberOfLabels in
  if negb (rows + (if makeFirstEntryConst then 1 else 0) =? n) then Throw
  else if negb (length features =? cols) then Throw
  else
    let first := if makeFirstEntryConst then 1 else 0 in
    o <- (if makeFirstEntryConst then put_offsets n (repeat 0 (n * 3)) 0 0 0 0 else Ret (repeat 0 (n * 3))) ;;
    '(o, ids, _) <- foldM (fun (st : list nat * list nat * nat) l =>
        let '(o, ids, wOffset) := st in
        o <- put_offsets n o l cols wOffset 0 ;;
        ids <- foldM (fun ids wi => row <- rd weightIds (l - first) ;; id <- rd row wi ;; wr ids (wOffset + wi) id) (seq 0 cols) ids ;;
        Ret (o, ids, wOffset + cols)) (seq first (n - first)) (o, repeat 0 (rows * cols), 0) ;;
    Ret (mkLUnary (Some weights) n o ids features).

(** lunary.hxx 191-243: features and weight indices for each label (FeaturesAndIndices, lunary.hxx 22-26). *)
Definition lunary_new (weights : list T) (fi : list (list T * list nat)) : outcome lunary :=
  let n := length fi in
  '(o, wOffset, fOffset) <- foldM (fun (st : list nat * nat * nat) l =>
      let '(o, wOffset, fOffset) := st in
      x <- rd fi l ;;
      let nw := length (snd x) in let nf := length (fst x) in
      if negb (nw =? nf) then Throw
      else o <- put_offsets n o l nw wOffset fOffset ;; Ret (o, wOffset + nw, fOffset + nf)) (seq 0 n) (repeat 0 (n * 3), 0, 0) ;;
  let f := mkLUnary (Some weights) n o [] [] in
  '(ids, feats) <- foldM (fun (st : list nat * list T) l =>
      nw <- numWeightsForL f l ;;
      foldM (fun (st : list nat * list T) i =>
        let '(ids, feats) := st in
        fo <- featureOffset f l ;; x <- rd fi l ;;
        id <- rd (snd x) i ;; ids <- wr ids (fo + i) id ;;
        fe <- rd (fst x) i ;; feats <- wr feats (fo + i) fe ;;
        Ret (ids, feats)) (seq 0 nw) st) (seq 0 n) (repeat 0 wOffset, repeat zero fOffset) ;;
  idSet <- ras_insert_range nat Nat.ltb [] ids ;;
  if negb (length idSet =? length ids) then Throw
  else Ret (mkLUnary (Some weights) n o ids feats).

(** lunary.hxx 72-82. *)
Definition lunary_setWeights (w : list T) (f : lunary) : lunary := mkLUnary (Some w) (lu_numberOfLabels f) (lu_offsets f) (lu_weightIds f) (lu_features f).
Definition lunary_numberOfWeights (f : lunary) : nat := length (lu_weightIds f).
Definition lunary_weightIndex (f : lunary) (i : nat) : outcome nat := rd (lu_weightIds f) i.
(** lunary.hxx 247-268. *)
Definition lunary_weightGradient (f : lunary) (i : nat) (c : list nat) : outcome T :=
  if negb (i <? lunary_numberOfWeights f) then Throw
  else
    l <- rd c 0 ;; nw <- numWeightsForL f l ;;
    if 0 <? nw then
      a <- weightIdOffset f l ;;
      if (a <=? i) && (i <? a + nw) then fo <- featureOffset f l ;; rd (lu_features f) (fo + (i - a)) else Ret zero
    else Ret zero.
(** lunary.hxx 270-297. *)
Definition lunary_call (f : lunary) (c : list nat) : outcome T :=
  l <- rd c 0 ;; nw <- numWeightsForL f l ;;
  foldM (fun val i =>
      a <- weightIdOffset f l ;; wi <- rd (lu_weightIds f) (a + i) ;;
      w <- getWeight (lu_weights f) wi ;; fo <- featureOffset f l ;; x <- rd (lu_features f) (fo + i) ;;
      Ret (add val (mul w x))) (seq 0 nw) zero.
(** lunary.hxx 373-418. *)
Definition lunary_serialize (f : lunary) : outcome (list nat * list T) :=
  o <- mapM (rd (lu_offsets f)) (seq 0 (length (lu_offsets f))) ;;
  ids <- mapM (rd (lu_weightIds f)) (seq 0 (length (lu_weightIds f))) ;;
  vs <- mapM (rd (lu_features f)) (seq 0 (length (lu_features f))) ;;
  Ret (lu_numberOfLabels f :: length (lu_weightIds f) :: length (lu_features f) :: o ++ ids, vs).
(** lunary.hxx 420-474. *)
Definition lunary_deserialize (ix : list nat) (vs : list T) (dst : lunary) : outcome lunary :=
  n <- rd ix 0 ;; nW <- rd ix 1 ;; nF <- rd ix 2 ;;
  o <- mapM (fun i => rd ix (3 + i)) (seq 0 (3 * n)) ;;
  ids <- mapM (fun i => rd ix (3 + 3 * n + i)) (seq 0 nW) ;;
  feats <- mapM (rd vs) (seq 0 nF) ;;
  Ret (mkLUnary (lu_weights dst) n o ids feats).
(** lunary.hxx 300-319, 346-371. *)
Definition lunary_ft : ftype T lunary :=
  mkFt (fun _ => 1) (fun f _ => Ret (lu_numberOfLabels f)) (fun f => Z.of_nat (lu_numberOfLabels f)) lunary_call
       (fun f => 1 + 1 + 1 + 3 * lu_numberOfLabels f + length (lu_weightIds f)) (fun f => length (lu_features f)) lunary_serialize lunary_deserialize.
Definition lunary_ln : learnable T lunary := mkLearnable lunary_ft lunary_setWeights lunary_numberOfWeights lunary_weightIndex lunary_weightGradient.

(** ** LWeightedSumOfFunctions, lweightedsum_of_functions.hxx 27-65; the features are arrays in the default order *)
Record lsum : Type := mkLSum { ls_weights : option (list T); ls_shape : list nat; ls_weightIDs : list nat; ls_feat : list (explicitf T) }.
(** lweightedsum_of_functions.hxx 68-93: the constructors. *)
Definition lsum_new (shape : list nat) (weights : list T) (weightIDs : list nat) (feat : list (explicitf T)) : lsum := mkLSum (Some weights) shape weightIDs feat.
Definition lsum_default : lsum := mkLSum None [] [] [].
(** lweightedsum_of_functions.hxx 49-54. *)
Definition lsum_setWeights (w : list T) (f : lsum) : lsum := mkLSum (Some w) (ls_shape f) (ls_weightIDs f) (ls_feat f).
Definition lsum_numberOfWeights (f : lsum) : nat := length (ls_weightIDs f).
Definition lsum_weightIndex (f : lsum) (i : nat) : outcome nat := rd (ls_weightIDs f) i.
(** lweightedsum_of_functions.hxx 96-106. *)
Definition lsum_weightGradient (f : lsum) (i : nat) (c : list nat) : outcome T := t <- rd (ls_feat f) i ;; explicit_call T t c.
(** lweightedsum_of_functions.hxx 108-120. *)
Definition lsum_call (f : lsum) (c : list nat) : outcome T :=
  foldM (fun val i => id <- rd (ls_weightIDs f) i ;; w <- getWeight (ls_weights f) id ;; g <- lsum_weightGradient f i c ;; Ret (add val (mul w g)))
    (seq 0 (lsum_numberOfWeights f)) zero.
(** lweightedsum_of_functions.hxx 138-145. *)
Definition lsum_size (f : lsum) : nat := fold_left (fun s n => s * n) (ls_shape f) 1.
(** lweightedsum_of_functions.hxx 190-223. *)
Definition lsum_serialize (f : lsum) : outcome (list nat * list T) :=
  sh <- mapM (rd (ls_shape f)) (seq 0 (length (ls_shape f))) ;;
  ids <- mapM (rd (ls_weightIDs f)) (seq 0 (length (ls_weightIDs f))) ;;
  vs <- mapM (fun i => t <- rd (ls_feat f) i ;; mapM (rd (ex_data t)) (seq 0 (length (ex_data t)))) (seq 0 (length (ls_weightIDs f))) ;;
  Ret (length (ls_shape f) :: sh ++ length (ls_weightIDs f) :: ids, concat vs).
(** lweightedsum_of_functions.hxx 225-260: everything is read into local variables; dst is not assigned. *)
Definition lsum_deserialize (ix : list nat) (vs : list T) (dst : lsum) : outcome lsum :=
  dim <- rd ix 0 ;; sh <- mapM (fun i => rd ix (S i)) (seq 0 dim) ;;
  numW <- rd ix (S dim) ;; ids <- mapM (fun i => rd ix (S (S dim) + i)) (seq 0 numW) ;;
  let size := size_of sh in
  _ <- mapM (fun i => mapM (fun j => rd vs (i * size + j)) (seq 0 size)) (seq 0 numW) ;;
  Ret dst.
Definition lsum_ft : ftype T lsum :=
  mkFt (fun f => length (ls_shape f)) (fun f => rd (ls_shape f)) (fun f => Z.of_nat (lsum_size f)) lsum_call
       (fun f => 1 + length (ls_shape f) + 1 + length (ls_weightIDs f)) (fun f => length (ls_feat f) * lsum_size f) lsum_serialize lsum_deserialize.
Definition lsum_ln : learnable T lsum := mkLearnable lsum_ft lsum_setWeights lsum_numberOfWeights lsum_weightIndex lsum_weightGradient.

(** ** Weights *)
(** weights.hxx 87-153, WeightRegularizer: the norms -1, 1 and 2; [absv] is std::abs, std::pow(x, 2) is x * x. *)
Variable absv : T -> T.
Inductive regularizer : Type := NoRegularizer | L1Regularizer | L2Regularizer.
Definition regularizer_new (norm : Z) : outcome regularizer :=
  if (norm =? -1)%Z then Ret NoRegularizer else if (norm =? 1)%Z then Ret L1Regularizer else if (norm =? 2)%Z then Ret L2Regularizer else Throw.
Definition regularizer_evaluate (r : regularizer) (lambda : T) (weights : list T) : T :=
  match r with
  | NoRegularizer => zero
  | L1Regularizer => mul (fold_left (fun val w => add val (absv w)) weights zero) lambda
  | L2Regularizer => mul (fold_left (fun val w => add val (mul w w)) weights zero) lambda
  end.

(** weights.hxx 156-271, WeightConstraints: the members that addConstraint and the queries use. *)
Record wconstraints : Type := mkWC { wc_lower : list T; wc_upper : list T; wc_clower : list T; wc_cupper : list T;
  wc_offset : nat; wc_start : list nat; wc_size : list nat; wc_indices : list nat; wc_coeff : list T }.
Definition wc_new (lower upper : list T) : wconstraints := mkWC lower upper [] [] 0 [] [] [] [].
(** weights.hxx 237-256; the bounds of the constraint are parameters that the function does not use. *)
Definition wc_addConstraint (s : wconstraints) (indices : list nat) (coeff : list T) (lowerBound upperBound : T) : outcome wconstraints :=
  co <- mapM (rd coeff) (seq 0 (length indices)) ;;
  Ret (mkWC (wc_lower s) (wc_upper s) (wc_clower s) (wc_cupper s) (wc_offset s + length indices) (wc_start s ++ [wc_offset s]) (wc_size s ++ [length indices])
            (wc_indices s ++ indices) (wc_coeff s ++ co)).
(** weights.hxx 187-214. *)
Definition wc_numberOfConstraints (s : wconstraints) : nat := length (wc_start s).
Definition wc_constraintSize (s : wconstraints) (ci : nat) : outcome nat := rd (wc_size s) ci.
Definition wc_constraintLowerBound (s : wconstraints) (ci : nat) : outcome T := rd (wc_clower s) ci.
Definition wc_constraintUpperBound (s : wconstraints) (ci : nat) : outcome T := rd (wc_cupper s) ci.
End Learn.
