(** The fallback members of include/opengm/functions/function_properties_base.hxx and the members of potts.hxx and
    constant.hxx that replace them.

    A function is its extents and its values; what operator() does outside the extents is up to the function.
    Simplified: values are integers (isNumericEqual is then ==, lines 27-39; the tolerance for floating point types is not
    modelled), and size() does not overflow. *)
From Verif Require Import Base ShapeSpec IndexingModel UtilModel FunctionsModel.

Record gfun (T : Type) : Type := mkG { gf_shape : list nat; gf_call : list nat -> outcome T }.
Arguments mkG {T}. Arguments gf_shape {T}. Arguments gf_call {T}.
Definition gf_dim {T} (f : gfun T) : nat := length (gf_shape f).
Definition gf_size {T} (f : gfun T) : nat := size_of (gf_shape f).

(** Lines 211-222, forAllValuesInOrder; also 239-257, forAllValuesInAnyOrder and forAtLeastAllUniqueValues. *)
Definition for_values {T S : Type} (f : gfun T) (functor : S -> T -> S) (s : S) : outcome S :=
  ' (_, s) <- foldM (fun (p : list nat * S) (_ : nat) =>
      v <- gf_call f (fst p) ;; let s := functor (snd p) v in
      c <- sw_next (gf_shape f) (fst p) (gf_dim f) ;; Ret (c, s)) (seq 0 (gf_size f)) (sw_init (gf_dim f), s) ;;
  Ret s.
(** Lines 225-236, forAllValuesInSwitchedOrder. *)
Definition for_values_switched {T S : Type} (f : gfun T) (functor : S -> T -> S) (s : S) : outcome S :=
  ' (_, s) <- foldM (fun (p : list nat * S) (_ : nat) =>
      v <- gf_call f (fst p) ;; let s := functor (snd p) v in
      c <- so_next (gf_shape f) (fst p) (gf_dim f) ;; Ret (c, s)) (seq 0 (gf_size f)) (sw_init (gf_dim f), s) ;;
  Ret s.
(** Lines 176-187, forAllValuesInOrderWithCoordinate; also 190-208. *)
Definition for_values_coord {T S : Type} (f : gfun T) (functor : S -> T -> list nat -> S) (s : S) : outcome S :=
  ' (_, s) <- foldM (fun (p : list nat * S) (_ : nat) =>
      v <- gf_call f (fst p) ;; let s := functor (snd p) v (fst p) in
      c <- sw_next (gf_shape f) (fst p) (gf_dim f) ;; Ret (c, s)) (seq 0 (gf_size f)) (sw_init (gf_dim f), s) ;;
  Ret s.

(** A loop that returns false at the first failing test. *)
Fixpoint allM {A : Type} (l : list A) (test : A -> outcome bool) : outcome bool :=
  match l with [] => Ret true | a :: r => b <- test a ;; if b : bool then allM r test else Ret false end.
Fixpoint walk_all (shape : list nat) (n : nat) (c : list nat) (test : list nat -> outcome bool) : outcome bool :=
  match n with
  | 0 => Ret true
  | S n => b <- test c ;; if b : bool then c <- sw_next shape c (length shape) ;; walk_all shape n c test else Ret false
  end.

Section Eq.
Variables (T : Type) (eqv : T -> T -> bool).
(** Lines 146-173, operator==. *)
Definition fun_eq (fa fb : gfun T) : outcome bool :=
  if gf_dim fa =? gf_dim fb then
    b <- allM (seq 0 (gf_dim fa)) (fun i => x <- rd (gf_shape fa) i ;; y <- rd (gf_shape fb) i ;; Ret (x =? y)) ;;
    if b : bool then walk_all (gf_shape fa) (gf_size fa) (sw_init (gf_dim fa)) (fun c => x <- gf_call fa c ;; y <- gf_call fb c ;; Ret (eqv x y))
    else Ret false
  else Ret false.

(** Lines 371-394, isPotts. *)
Definition isPotts (f : gfun T) : outcome bool :=
  if gf_size f <=? 2 then Ret true
  else
    let c0 := sw_init (gf_dim f) in
    vEqual <- gf_call f c0 ;;
    c1 <- sw_next (gf_shape f) c0 (gf_dim f) ;;
    vNotEqual <- gf_call f c1 ;;
    c2 <- sw_next (gf_shape f) c1 (gf_dim f) ;;
    walk_all (gf_shape f) (gf_size f - 2) c2 (fun c =>
      v <- gf_call f c ;;
      if isEqualValueVector c then Ret (eqv vEqual v) else Ret (eqv vNotEqual v)).

(** Lines 396-501, isGeneralizedPotts.  For each dimension the list of representatives in the order in which they are
    read, each with the comparisons that select the labelings it is compared with: (l0==l1) for dimension 2,
    (l1==l2, l0==l2, l0==l1) for 3 and (l2==l3, l1==l3, l0==l3, l1==l2, l0==l2, l0==l1) for 4.  The tests of one labeling
    are made in the order of the representatives (that order is immaterial, they exclude each other). *)
Definition gp2 : list (list nat * list bool) := [([0; 1], [false]); ([0; 0], [true])].
Definition gp3 : list (list nat * list bool) :=
  [([0; 1; 2], [false; false; false]); ([1; 1; 0], [false; false; true]); ([1; 0; 1], [false; true; false]);
   ([0; 1; 1], [true; false; false]); ([0; 0; 0], [true; true; true])].
Definition gp4 : list (list nat * list bool) :=
  [([0; 1; 2; 3], [false; false; false; false; false; false]);
   ([0; 0; 1; 2], [false; false; false; false; false; true]);
   ([0; 1; 0; 2], [false; false; false; false; true; false]);
   ([1; 0; 0; 2], [false; false; false; true; false; false]);
   ([0; 0; 0; 1], [false; false; false; true; true; true]);
   ([0; 2; 1; 0], [false; false; true; false; false; false]);
   ([0; 1; 1; 0], [false; false; true; true; false; false]);
   ([0; 0; 1; 0], [false; true; true; false; false; true]);
   ([1; 0; 0; 0], [true; true; false; true; false; false]);
   ([0; 0; 0; 0], [true; true; true; true; true; true]);
   ([0; 0; 1; 1], [true; false; false; false; false; true]);
   ([0; 1; 0; 1], [false; true; false; false; true; false]);
   ([2; 1; 0; 0], [true; false; false; false; false; false]);
   ([2; 0; 1; 0], [false; true; false; false; false; false]);
   ([0; 1; 0; 0], [true; false; true; false; true; false])].
(** The comparisons of a labeling. *)
Definition gp_pattern (l : list nat) : list bool :=
  match l with
  | [a; b] => [a =? b]
  | [a; b; c] => [b =? c; a =? c; a =? b]
  | [a; b; c; d] => [c =? d; b =? d; a =? d; b =? c; a =? c; a =? b]
  | _ => []
  end.
Definition bools_eq (p q : list bool) : bool := if list_eq_dec Bool.bool_dec p q then true else false.
(** The loop body. *)
Definition gp_test (f : gfun T) (reps : list (T * list bool)) (l : list nat) : outcome bool :=
  allM reps (fun vp => if bools_eq (gp_pattern l) (snd vp) then x <- gf_call f l ;; Ret (eqv x (fst vp)) else Ret true).
(** The nested loops, the last label fastest; [l] is what the outer loops have set. *)
Fixpoint gp_loops (shape : list nat) (l : list nat) (test : list nat -> outcome bool) : outcome bool :=
  match shape with
  | [] => test l
  | s :: shape => allM (seq 0 s) (fun x => gp_loops shape (l ++ [x]) test)
  end.
Definition isGeneralizedPotts (f : gfun T) : outcome bool :=
  let run reps := vs <- mapM (fun rp : list nat * list bool => v <- gf_call f (fst rp) ;; Ret (v, snd rp)) reps ;; gp_loops (gf_shape f) [] (gp_test f vs) in
  match gf_dim f with
  | 2 => run gp2
  | 3 => run gp3
  | 4 => run gp4
  | _ => Ret false
  end.
End Eq.

(** Lines 503-519, isSubmodular. *)
Definition isSubmodular (f : gfun Z) : outcome bool :=
  if gf_dim f =? 1 then Ret true
  else if negb (gf_dim f =? 2) then Throw
  else s0 <- rd (gf_shape f) 0 ;; s1 <- rd (gf_shape f) 1 ;;
       if negb (s0 =? 2) || negb (s1 =? 2) then Throw
       else v00 <- gf_call f [0; 0] ;; v11 <- gf_call f [1; 1] ;; v10 <- gf_call f [1; 0] ;; v01 <- gf_call f [0; 1] ;;
            Ret (v00 + v11 <=? v10 + v01)%Z.

(** Distance of two labels, line 284. *)
Definition absd (x y : nat) : Z := Z.of_nat (if x <? y then y - x else x - y).
(** Lines 273-293, isSquaredDifference ([sq] = true), and 323-342, isAbsoluteDifference.  The assertion shape(0) > 1 is
    only checked in debug builds. *)
Definition isDifference (sq : bool) (f : gfun Z) : outcome bool :=
  if gf_dim f =? 2 then
    s0 <- rd (gf_shape f) 0 ;; s1 <- rd (gf_shape f) 1 ;;
    weight <- gf_call f [1; 0] ;;
    allM (seq 0 s1) (fun y => allM (seq 0 s0) (fun x =>
      let d := absd x y in let d := if sq then (d * d)%Z else d in
      v <- gf_call f [x; y] ;; Ret (v =? d * weight)%Z))
  else Ret false.
(** Lines 295-321, isTruncatedSquaredDifference ([sq] = true), and 344-369, isTruncatedAbsoluteDifference. *)
Definition isTruncatedDifference (sq : bool) (f : gfun Z) : outcome bool :=
  if gf_dim f =? 2 then
    s0 <- rd (gf_shape f) 0 ;; s1 <- rd (gf_shape f) 1 ;;
    weight <- gf_call f [1; 0] ;;
    truncated <- gf_call f [s0 - 1; 0] ;;
    allM (seq 0 s1) (fun y => allM (seq 0 s0) (fun x =>
      let d := absd x y in let d := if sq then (d * d)%Z else d in
      fval <- gf_call f [x; y] ;; let compare := (d * weight)%Z in
      Ret (negb (negb (fval =? compare)%Z && negb ((fval =? truncated) && (truncated <? compare))%Z))))
  else Ret false.

(** Lines 528-537, minMax. *)
Definition fun_minMax (f : gfun Z) : outcome (minmax Z) :=
  tmp <- gf_call f (sw_init (gf_dim f)) ;; for_values f (mm_feed Z Z.ltb) (mm_init2 Z tmp tmp).
(** Minimizer::op, Maximizer::op, Integrator::op and Multiplier::op with two arguments (operations/minimizer.hxx,
    maximizer.hxx, integrator.hxx, multiplier.hxx; see OperationsModel.v) as an accumulating functor. *)
Definition op_min (acc v : Z) : Z := if (v <? acc)%Z then v else acc.
Definition op_max (acc v : Z) : Z := if (acc <? v)%Z then v else acc.
(** Lines 539-547, min; 549-557, max; 559-565, sum; 567-573, product. *)
Definition fun_min (f : gfun Z) : outcome Z := tmp <- gf_call f (sw_init (gf_dim f)) ;; for_values f op_min tmp.
Definition fun_max (f : gfun Z) : outcome Z := tmp <- gf_call f (sw_init (gf_dim f)) ;; for_values f op_max tmp.
Definition fun_sum (f : gfun Z) : outcome Z := for_values f (fun acc v => (acc + v)%Z) 0%Z.
Definition fun_product (f : gfun Z) : outcome Z := for_values f (fun acc v => (acc * v)%Z) 1%Z.
(** Lines 575-600, accumulate<ACC>; [AOther] is an accumulator type other than the five, with its neutral element. *)
Inductive accT : Type := AMinimizer | AMaximizer | AAdder | AIntegrator | AMultiplier | AOther (neutral : Z) (op : Z -> Z -> Z).
Definition fun_accumulate (f : gfun Z) (A : accT) : outcome Z :=
  match A with
  | AMinimizer => fun_min f
  | AMaximizer => fun_max f
  | AAdder => fun_sum f
  | AIntegrator => fun_sum f
  | AMultiplier => fun_product f
  | AOther n op => for_values f (fun acc v => op v acc) n
  end.

(** potts.hxx 253-303: min, max, sum, product, minMax (the conversions to double and int of product() are exact). *)
Definition potts_min (f : fn2 Z) : Z := if (f_a f <? f_b f)%Z then f_a f else f_b f.
Definition potts_max (f : fn2 Z) : Z := if (f_a f <? f_b f)%Z then f_b f else f_a f.
Definition potts_sum (f : fn2 Z) : Z :=
  let m := Nat.min (f_n1 f) (f_n2 f) in (f_b f * Z.of_nat (f_n1 f * f_n2 f - m) + f_a f * Z.of_nat m)%Z.
Definition potts_product (f : fn2 Z) : Z :=
  let m := Nat.min (f_n1 f) (f_n2 f) in (f_b f ^ Z.of_nat (f_n1 f * f_n2 f - m) * f_a f ^ Z.of_nat m)%Z.
Definition potts_minMax (f : fn2 Z) : minmax Z :=
  if (f_a f <? f_b f)%Z then mm_init2 Z (f_a f) (f_b f) else mm_init2 Z (f_b f) (f_a f).
(** constant.hxx 38-49; the same simplification. *)
Definition const_min (f : constf Z) : Z := cn_value f.
Definition const_max (f : constf Z) : Z := cn_value f.
Definition const_sum (f : constf Z) : Z := (cn_value f * cn_size f)%Z.
Definition const_product (f : constf Z) : Z := (cn_value f ^ cn_size f)%Z.
Definition const_minMax (f : constf Z) : minmax Z := mm_init2 Z (cn_value f) (cn_value f).
(** The generic members see a Potts or constant function through its shape() and operator(). *)
Definition potts_fun (f : fn2 Z) : gfun Z := mkG [f_n1 f; f_n2 f] (ft_call (potts Z) f).
Definition const_fun (f : constf Z) : gfun Z := mkG (cn_shape f) (ft_call (constant Z) f).
