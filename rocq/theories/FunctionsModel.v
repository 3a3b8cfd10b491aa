(** The parametric and table functions of include/opengm/functions, their serialization (class FunctionSerialization of
    each header) and the fallback members of function_properties_base.hxx.

    Simplified: label counts and products of two label counts do not overflow; the value type's arithmetic is a record
    [num], instantiated with the integers where laws are needed.  An output iterator collects the list of what is
    written through it; an input iterator is the list it ranges over, and reading behind it is undefined. *)
From Verif Require Import Base ShapeSpec IndexingModel UtilModel.

(** Arithmetic of the value type: conversion of a label, -, *, abs, <. *)
Record num (T : Type) : Type := mkNum { n_of : nat -> T; n_sub : T -> T -> T; n_mul : T -> T -> T; n_abs : T -> T; n_lt : T -> T -> bool }.
Arguments n_of {T}. Arguments n_sub {T}. Arguments n_mul {T}. Arguments n_abs {T}. Arguments n_lt {T}.
Definition num_Z : num Z := mkNum Z Z.of_nat Z.sub Z.mul Z.abs Z.ltb.

(** The interface of a function type and of its FunctionSerialization. *)
Record ftype (T F : Type) : Type := mkFt {
  ft_dimension : F -> nat; ft_shape : F -> nat -> outcome nat; ft_size : F -> Z; ft_call : F -> list nat -> outcome T;
  ft_indexSequenceSize : F -> nat; ft_valueSequenceSize : F -> nat;
  ft_serialize : F -> outcome (list nat * list T);
  ft_deserialize : list nat -> list T -> F -> outcome F }.
Arguments mkFt {T F}. Arguments ft_dimension {T F}. Arguments ft_shape {T F}. Arguments ft_size {T F}. Arguments ft_call {T F}.
Arguments ft_indexSequenceSize {T F}. Arguments ft_valueSequenceSize {T F}. Arguments ft_serialize {T F}. Arguments ft_deserialize {T F}.

(** std::accumulate(begin, end, 1, multiplies<size_t>): the accumulator has the type of the literal 1, int. *)
Definition to_int (z : Z) : Z := ((z + 2 ^ 31) mod 2 ^ 32 - 2 ^ 31)%Z.
Definition to_size (z : Z) : Z := (z mod 2 ^ 64)%Z.
Definition accumulate_size (shape : list nat) : Z :=
  to_size (fold_left (fun acc s => to_int (to_size (to_size acc * Z.of_nat s))) shape 1%Z).

Section Functions.
Variable T : Type.
Variable N : num T.

(** Two label counts and two parameters: the members of potts.hxx 49-52, truncated_absolute_difference.hxx 30-33 and
    truncated_squared_difference.hxx 30-33. *)
Record fn2 : Type := mkFn2 { f_n1 : nat; f_n2 : nat; f_a : T; f_b : T }.
(** shape(i): potts.hxx 124-132, truncated_absolute_difference.hxx 87-97, truncated_squared_difference.hxx 91-101. *)
Definition fn2_shape (f : fn2) (i : nat) : outcome nat := Ret (if i =? 0 then f_n1 f else f_n2 f).
(** size(): potts.hxx 140-144, truncated_absolute_difference.hxx 106-111, truncated_squared_difference.hxx 110-115. *)
Definition fn2_size (f : fn2) : Z := Z.of_nat (f_n1 f * f_n2 f).
(** serialize: potts.hxx 164-180, truncated_absolute_difference.hxx 131-147, truncated_squared_difference.hxx 135-151. *)
Definition fn2_serialize (f : fn2) : outcome (list nat * list T) :=
  s0 <- fn2_shape f 0 ;; s1 <- fn2_shape f 1 ;; Ret ([s0; s1], [f_a f; f_b f]).
(** deserialize: potts.hxx 182-198, truncated_absolute_difference.hxx 149-165, truncated_squared_difference.hxx 153-169. *)
Definition fn2_deserialize (ix : list nat) (vs : list T) (_ : fn2) : outcome fn2 :=
  s1 <- rd ix 0 ;; s2 <- rd ix 1 ;; p1 <- rd vs 0 ;; p2 <- rd vs 1 ;; Ret (mkFn2 s1 s2 p1 p2).

(** potts.hxx 101-109. *)
Definition potts_call (f : fn2) (c : list nat) : outcome T :=
  x <- rd c 0 ;; y <- rd c 1 ;; Ret (if x =? y then f_a f else f_b f).
Definition potts : ftype T fn2 := mkFt (fun _ => 2) fn2_shape fn2_size potts_call (fun _ => 2) (fun _ => 2) fn2_serialize fn2_deserialize.

(** truncated_absolute_difference.hxx 75-85. *)
Definition truncabs_call (f : fn2) (c : list nat) : outcome T :=
  x <- rd c 0 ;; y <- rd c 1 ;;
  let value := n_sub N (n_of N x) (n_of N y) in
  Ret (if n_lt N (f_a f) (n_abs N value) then n_mul N (f_a f) (f_b f) else n_mul N (n_abs N value) (f_b f)).
Definition truncabs : ftype T fn2 := mkFt (fun _ => 2) fn2_shape fn2_size truncabs_call (fun _ => 2) (fun _ => 2) fn2_serialize fn2_deserialize.

(** truncated_squared_difference.hxx 79-89. *)
Definition truncsq_call (f : fn2) (c : list nat) : outcome T :=
  x <- rd c 0 ;; y <- rd c 1 ;;
  let value := n_sub N (n_of N x) (n_of N y) in
  Ret (if n_lt N (f_a f) (n_mul N value value) then n_mul N (f_a f) (f_b f) else n_mul N (n_mul N value value) (f_b f)).
Definition truncsq : ftype T fn2 := mkFt (fun _ => 2) fn2_shape fn2_size truncsq_call (fun _ => 2) (fun _ => 2) fn2_serialize fn2_deserialize.

(** Two label counts and one parameter: absolute_difference.hxx 29-33, squared_difference.hxx 31-33. *)
Record fn1 : Type := mkFn1 { g_n1 : nat; g_n2 : nat; g_w : T }.
Definition fn1_shape (f : fn1) (i : nat) : outcome nat := Ret (if i =? 0 then g_n1 f else g_n2 f).
Definition fn1_size (f : fn1) : Z := Z.of_nat (g_n1 f * g_n2 f).
(** absolute_difference.hxx 78-88. *)
Definition absdiff_call (f : fn1) (c : list nat) : outcome T :=
  x <- rd c 0 ;; y <- rd c 1 ;; Ret (n_mul N (g_w f) (n_abs N (n_sub N (n_of N x) (n_of N y)))).
(** absolute_difference.hxx 135-149: the scale is not read but computed as the value at (0,1). *)
Definition absdiff_serialize (f : fn1) : outcome (list nat * list T) :=
  s0 <- fn1_shape f 0 ;; s1 <- fn1_shape f 1 ;; v <- absdiff_call f [0; 1] ;; Ret ([s0; s1], [v]).
(** absolute_difference.hxx 151-163; squared_difference.hxx 153-165. *)
Definition fn1_deserialize (ix : list nat) (vs : list T) (_ : fn1) : outcome fn1 :=
  s0 <- rd ix 0 ;; s1 <- rd ix 1 ;; w <- rd vs 0 ;; Ret (mkFn1 s0 s1 w).
Definition absdiff : ftype T fn1 := mkFt (fun _ => 2) fn1_shape fn1_size absdiff_call (fun _ => 2) (fun _ => 1) absdiff_serialize fn1_deserialize.
(** squared_difference.hxx 76-86. *)
Definition sqdiff_call (f : fn1) (c : list nat) : outcome T :=
  x <- rd c 0 ;; y <- rd c 1 ;; let value := n_sub N (n_of N x) (n_of N y) in Ret (n_mul N (n_mul N value value) (g_w f)).
(** squared_difference.hxx 138-151. *)
Definition sqdiff_serialize (f : fn1) : outcome (list nat * list T) :=
  s0 <- fn1_shape f 0 ;; s1 <- fn1_shape f 1 ;; Ret ([s0; s1], [g_w f]).
Definition sqdiff : ftype T fn1 := mkFt (fun _ => 2) fn1_shape fn1_size sqdiff_call (fun _ => 2) (fun _ => 1) sqdiff_serialize fn1_deserialize.

(** pottsn.hxx 38-41, members. *)
Record pottsn : Type := mkPottsN { pn_shape : list nat; pn_size : Z; pn_eq : T; pn_ne : T }.
(** pottsn.hxx 70-86; 88-95 (default constructor, ValueType() is [z]). *)
Definition pottsn_new (shape : list nat) (a b : T) : pottsn := mkPottsN shape (accumulate_size shape) a b.
Definition pottsn_default (z : T) : pottsn := mkPottsN [] 0 z z.
(** pottsn.hxx 97-111. *)
Definition pottsn_call (f : pottsn) (c : list nat) : outcome T :=
  tmp <- rd c 0 ;;
  b <- foldM (fun (eq : bool) i => if eq then x <- rd c i ;; Ret (x =? tmp) else Ret false) (seq 0 (length (pn_shape f))) true ;;
  Ret (if b : bool then pn_eq f else pn_ne f).
(** pottsn.hxx 154-173. *)
Definition pottsn_serialize (f : pottsn) : outcome (list nat * list T) :=
  sh <- mapM (rd (pn_shape f)) (seq 0 (length (pn_shape f))) ;; Ret (length (pn_shape f) :: sh, [pn_eq f; pn_ne f]).
(** pottsn.hxx 175-197. *)
Definition pottsn_deserialize (ix : list nat) (vs : list T) (_ : pottsn) : outcome pottsn :=
  dim <- rd ix 0 ;; sh <- mapM (fun i => rd ix (S i)) (seq 0 dim) ;; p1 <- rd vs 0 ;; p2 <- rd vs 1 ;; Ret (pottsn_new sh p1 p2).
Definition pottsN : ftype T pottsn := mkFt (fun f => length (pn_shape f)) (fun f => rd (pn_shape f)) pn_size pottsn_call
  (fun f => length (pn_shape f) + 1) (fun _ => 2) pottsn_serialize pottsn_deserialize.

(** constant.hxx 84-102, members and constructors. *)
Record constf : Type := mkConst { cn_value : T; cn_shape : list nat; cn_size : Z }.
Definition const_new (shape : list nat) (v : T) : constf := mkConst v shape (accumulate_size shape).
Definition const_default (z : T) : constf := mkConst z [] 0.
(** constant.hxx 104-112. *)
Definition const_call (f : constf) (_ : list nat) : outcome T := Ret (cn_value f).
(** constant.hxx 156-171. *)
Definition const_serialize (f : constf) : outcome (list nat * list T) :=
  sh <- mapM (rd (cn_shape f)) (seq 0 (length (cn_shape f))) ;; Ret (length (cn_shape f) :: sh, [cn_value f]).
(** constant.hxx 173-190. *)
Definition const_deserialize (ix : list nat) (vs : list T) (_ : constf) : outcome constf :=
  v <- rd vs 0 ;; dim <- rd ix 0 ;; sh <- mapM (fun i => rd ix (S i)) (seq 0 dim) ;; Ret (mkConst v sh (accumulate_size sh)).
Definition constant : ftype T constf := mkFt (fun f => length (cn_shape f)) (fun f => rd (cn_shape f)) cn_size const_call
  (fun f => length (cn_shape f) + 1) (fun _ => 1) const_serialize const_deserialize.

(** ExplicitFunction, explicit_function.hxx 17-60, is a marray::Marray: a shape and a block of memory, here with the
    strides of the default order (first coordinate fastest); a default constructed one has no memory. *)
Record explicitf : Type := mkExplicit { ex_shape : list nat; ex_data : list T }.
Definition explicit_call (f : explicitf) (c : list nat) : outcome T :=
  c <- mapM (rd c) (seq 0 (length (ex_shape f))) ;; rd (ex_data f) (index_of (ex_shape f) c).
(** explicit_function.hxx 105-129. *)
Definition explicit_serialize (f : explicitf) : outcome (list nat * list T) :=
  if length (ex_shape f) =? 0 then v <- rd (ex_data f) 0 ;; Ret ([0], [v])
  else sh <- mapM (rd (ex_shape f)) (seq 0 (length (ex_shape f))) ;; vs <- mapM (rd (ex_data f)) (seq 0 (length (ex_data f))) ;;
       Ret (length (ex_shape f) :: sh, vs).
(** explicit_function.hxx 131-158; resize allocates a block for the shape. *)
Definition explicit_deserialize (ix : list nat) (vs : list T) (_ : explicitf) : outcome explicitf :=
  dim <- rd ix 0 ;;
  if dim =? 0 then v <- rd vs 0 ;; Ret (mkExplicit [] [v])
  else sh <- mapM (fun i => rd ix (S i)) (seq 0 dim) ;; d <- mapM (rd vs) (seq 0 (size_of sh)) ;; Ret (mkExplicit sh d).
Definition explicit : ftype T explicitf := mkFt (fun f => length (ex_shape f)) (fun f => rd (ex_shape f)) (fun f => Z.of_nat (length (ex_data f))) explicit_call
  (fun f => length (ex_shape f) + 1) (fun f => length (ex_data f)) explicit_serialize explicit_deserialize.

(** StaticSingleSiteFunction, singlesitefunction.hxx 15-126: an array of SIZE entries on the stack or on the heap. *)
Definition static_call (f : list T) (c : list nat) : outcome T := x <- rd c 0 ;; rd f x.
(** singlesitefunction.hxx 289-325. *)
Definition static_serialize (SIZE : nat) (f : list T) : outcome (list nat * list T) := vs <- mapM (fun i => static_call f [i]) (seq 0 SIZE) ;; Ret ([], vs).
Definition static_deserialize (SIZE : nat) (ix : list nat) (vs : list T) (f : list T) : outcome (list T) :=
  foldM (fun f i => v <- rd vs i ;; wr f i v) (seq 0 SIZE) f.
Definition staticsite (SIZE : nat) : ftype T (list T) := mkFt (fun _ => 1) (fun _ _ => Ret SIZE) (fun _ => Z.of_nat SIZE) static_call
  (fun _ => 0) (fun _ => SIZE) (static_serialize SIZE) (static_deserialize SIZE).

(** DynamicSingleSiteFunction, singlesitefunction.hxx 128-273: the entries; an empty one has no buffer. *)
Definition dynamic_call (f : list T) (c : list nat) : outcome T := x <- rd c 0 ;; rd f x.
(** singlesitefunction.hxx 327-362: nothing is written to the index sequence, but its first entry is read; assign (204-217)
    leaves the entries of a new buffer uninitialised ([junk]), all of them are then written. *)
Definition dynamic_serialize (f : list T) : outcome (list nat * list T) := vs <- mapM (fun i => dynamic_call f [i]) (seq 0 (length f)) ;; Ret ([], vs).
Definition dynamic_deserialize (junk : T) (ix : list nat) (vs : list T) (f : list T) : outcome (list T) :=
  size <- rd ix 0 ;; foldM (fun f i => v <- rd vs i ;; wr f i v) (seq 0 size) (if length f =? size then f else repeat junk size).
Definition dynamicsite (junk : T) : ftype T (list T) := mkFt (fun _ => 1) (fun f _ => Ret (length f)) (fun f => Z.of_nat (length f)) dynamic_call
  (fun _ => 1) (fun f => length f) dynamic_serialize (dynamic_deserialize junk).

(** SparseFunction, datastructures/sparsemarray/sparsemarray.hxx; the container is a std::map, a list sorted by keys. *)
Record sparsef : Type := mkSparse { sp_default : T; sp_map : list (nat * T); sp_shape : list nat; sp_strides : list nat }.
(** std::map::find and std::map::insert (an existing key keeps its value). *)
Fixpoint map_find (k : nat) (m : list (nat * T)) : option T :=
  match m with [] => None | (q, v) :: r => if q =? k then Some v else map_find k r end.
Fixpoint map_insert (k : nat) (v : T) (m : list (nat * T)) : list (nat * T) :=
  match m with [] => [(k, v)] | (q, w) :: r => if k <? q then (k, v) :: m else if k =? q then m else (q, w) :: map_insert k v r end.
(** Lines 40-57; LabelType does not overflow. *)
Definition sparse_new (shape : list nat) (d : T) : sparsef :=
  mkSparse d [] shape (fst (fold_left (fun (p : list nat * nat) s => (fst p ++ [snd p], snd p * s)) shape ([], 1))).
(** Lines 59-65. *)
Definition sparse_size (f : sparsef) : Z := Z.of_nat (fold_left Nat.mul (sp_shape f) 1).
(** Lines 99-107 and 109-116. *)
Definition coordinateToKey (f : sparsef) (c : list nat) : outcome nat :=
  foldM (fun key d => s <- rd (sp_strides f) d ;; x <- rd c d ;; Ret (key + s * x)) (seq 0 (length (sp_shape f))) 0.
(** Lines 82-96; [c] is the range the result is written to.  Division by a stride of zero is undefined. *)
Definition keyToCoordinate (f : sparsef) (key : nat) (c : list nat) : outcome (list nat) :=
  let dimension := length (sp_shape f) in
  if dimension =? 1 then wr c 0 key
  else ' (c, _) <- foldM (fun (p : list nat * nat) d =>
                      let '(c, keyRest) := p in
                      let dim := (dimension - 1) - d in
                      s <- rd (sp_strides f) dim ;;
                      if s =? 0 then Undef
                      else let q := keyRest / s in
                           c <- wr c dim q ;; Ret (c, keyRest - q * s)) (seq 0 dimension) (c, key) ;;
       Ret c.
(** Lines 165-173. *)
Definition valueFromKey (f : sparsef) (k : nat) : T := match map_find k (sp_map f) with Some v => v | None => sp_default f end.
(** Lines 118-159. *)
Definition sparse_call (f : sparsef) (c : list nat) : outcome T := k <- coordinateToKey f c ;; Ret (valueFromKey f k).
(** Lines 175-178. *)
Definition sparse_insert (f : sparsef) (c : list nat) (v : T) : outcome sparsef :=
  k <- coordinateToKey f c ;; Ret (mkSparse (sp_default f) (map_insert k v (sp_map f)) (sp_shape f) (sp_strides f)).
(** functions/sparsemarray.hxx 55-85. *)
Definition sparse_serialize (f : sparsef) : outcome (list nat * list T) :=
  sh <- mapM (rd (sp_shape f)) (seq 0 (length (sp_shape f))) ;;
  Ret (length (sp_shape f) :: sh ++ length (sp_map f) :: map fst (sp_map f), sp_default f :: map snd (sp_map f)).
(** functions/sparsemarray.hxx 87-116. *)
Definition sparse_deserialize (ix : list nat) (vs : list T) (_ : sparsef) : outcome sparsef :=
  dim <- rd ix 0 ;; sh <- mapM (fun i => rd ix (S i)) (seq 0 dim) ;; d <- rd vs 0 ;; n <- rd ix (S dim) ;;
  let f := sparse_new sh d in
  m <- foldM (fun m i => k <- rd ix (S (S dim) + i) ;; v <- rd vs (S i) ;; Ret (map_insert k v m)) (seq 0 n) (sp_map f) ;;
  Ret (mkSparse (sp_default f) m (sp_shape f) (sp_strides f)).
Definition sparse : ftype T sparsef := mkFt (fun f => length (sp_shape f)) (fun f => rd (sp_shape f)) sparse_size sparse_call
  (fun f => 1 + length (sp_shape f) + 1 + length (sp_map f)) (fun f => length (sp_map f) + 1) sparse_serialize sparse_deserialize.
End Functions.
Arguments mkFn2 {T}. Arguments f_n1 {T}. Arguments f_n2 {T}. Arguments f_a {T}. Arguments f_b {T}.
Arguments mkFn1 {T}. Arguments g_n1 {T}. Arguments g_n2 {T}. Arguments g_w {T}.
Arguments mkPottsN {T}. Arguments pn_shape {T}. Arguments pn_size {T}. Arguments pn_eq {T}. Arguments pn_ne {T}.
Arguments mkConst {T}. Arguments cn_value {T}. Arguments cn_shape {T}. Arguments cn_size {T}.
Arguments mkExplicit {T}. Arguments ex_shape {T}. Arguments ex_data {T}.
Arguments mkSparse {T}. Arguments sp_default {T}. Arguments sp_map {T}. Arguments sp_shape {T}. Arguments sp_strides {T}.
