(** Model of include/opengm/datastructures/marray/marray.hxx: geometries, views, iterators, arrays.

    Memory is one list of values; a pointer is a position in it ([None] is the null pointer). A
    fresh allocation is appended at the end; de-allocation is not modelled (a freed block is just
    no longer referred to). The assertions of debug builds (MARRAY_NO_DEBUG, MARRAY_NO_ARG_TEST
    both false) are not modelled: this is the release build. size_t is modelled by [nat] (products
    of extents are not reduced modulo 2^64). Source and target value types are the same T.
    View expressions (ViewExpression and the expression templates), the fixed-dimension classes
    Vector and Matrix, asString and the initializer-list overloads are not modelled. *)
From Verif Require Import Base.

(** marray.hxx:25, enum CoordinateOrder. *)
Inductive order := FirstMajor | LastMajor.
Definition order_eqb (a b : order) : bool :=
  match a, b with
  | FirstMajor, FirstMajor => true
  | LastMajor, LastMajor => true
  | _, _ => false
  end.
(** marray.hxx:28 *)
Definition defaultOrder : order := LastMajor.

(** ** Geometry, marray.hxx:5694-6165 *)

(** marray.hxx:5745-5761, the data members (dimension_ is the length of the lists). *)
Record geometry := Geo {
  g_shape : list nat;
  g_shapeStrides : list nat;
  g_strides : list nat;
  g_size : nat;
  g_order : order;
  g_simple : bool
}.
Definition g_dim (g : geometry) : nat := length (g_shape g).

(** marray.hxx:6167-6203, stridesFromShape: each stride is the previous one times the previous
    extent, upwards from the first (last major order) or downwards from the last dimension. For an
    empty range the first assignment already writes outside of the array. *)
Fixpoint strides_up (t : nat) (shape : list nat) : list nat :=
  match shape with
  | [] => []
  | s :: sh => t :: strides_up (t * s) sh
  end.
Definition stridesFromShape (shape : list nat) (o : order) : outcome (list nat) :=
  match shape with
  | [] => Undef
  | _ => match o with
         | FirstMajor => Ret (rev (strides_up 1 (rev shape)))
         | LastMajor => Ret (strides_up 1 shape)
         end
  end.

Fixpoint list_eqb (a b : list nat) : bool :=
  match a, b with
  | [], [] => true
  | x :: a', y :: b' => Nat.eqb x y && list_eqb a' b'
  | _, _ => false
  end.

(** marray.hxx:6152-6165, updateSimplicity. *)
Definition updateSimplicity (g : geometry) : geometry :=
  Geo (g_shape g) (g_shapeStrides g) (g_strides g) (g_size g) (g_order g)
    (list_eqb (g_shapeStrides g) (g_strides g)).

(** marray.hxx:5763-5779, empty geometry. *)
Definition geo_empty : geometry := Geo [] [] [] 0 defaultOrder true.

(** marray.hxx:5808-5827, with dimension 0 and size 1 (its only use in a scalar). *)
Definition geo_scalar (o : order) : geometry := Geo [] [] [] 1 o true.

(** marray.hxx:5829-5865, unstrided geometry. *)
Definition geo_unstrided (shape : list nat) (ext int : order) : outcome geometry :=
  match shape with
  | [] => Ret (Geo [] [] [] 1 int true)
  | _ =>
      st <- stridesFromShape shape ext ;;
      ss <- stridesFromShape shape int ;;
      Ret (Geo shape ss st (fold_left Nat.mul shape 1) int (order_eqb ext int))
  end.

(** marray.hxx:5867-5900, strided geometry. *)
Definition geo_strided (shape strides : list nat) (int : order) : outcome geometry :=
  match shape with
  | [] => Ret (Geo [] [] [] 1 int true)
  | _ =>
      ss <- stridesFromShape shape int ;;
      Ret (updateSimplicity (Geo shape ss strides (fold_left Nat.mul shape 1) int true))
  end.

(** ** View, marray.hxx:735-3000 *)

Record view := View { v_data : option nat; v_geo : geometry }.
Definition v_shape (v : view) := g_shape (v_geo v).
Definition v_strides (v : view) := g_strides (v_geo v).
Definition v_size (v : view) := g_size (v_geo v).
Definition v_order (v : view) := g_order (v_geo v).
Definition v_simple (v : view) := g_simple (v_geo v).
Definition v_dim (v : view) := g_dim (v_geo v).

(** marray.hxx:763-776, coordinatesToIndex, and 795-808, coordinatesToOffset: the same loop with
    the shape strides and the strides. *)
Definition dotM (c strides : list nat) (dim : nat) : outcome nat :=
  foldM (fun out j => x <- rd c j ;; s <- rd strides j ;; Ret (out + x * s)) (seq 0 dim) 0.
Definition coordinatesToIndex (v : view) (c : list nat) : outcome nat :=
  dotM c (g_shapeStrides (v_geo v)) (v_dim v).
Definition coordinatesToOffset (v : view) (c : list nat) : outcome nat :=
  dotM c (v_strides v) (v_dim v).

(** marray.hxx:838-861, indexToCoordinates: one loop, upwards over the dimensions in first major
    order and downwards in last major order. Division by zero is undefined. *)
Fixpoint divs (index : nat) (ss : list nat) : outcome (list nat) :=
  match ss with
  | [] => Ret []
  | s :: ss' =>
      if Nat.eqb s 0 then Undef
      else r <- divs (index mod s) ss' ;; Ret (index / s :: r)
  end.
Definition indexToCoordinates (v : view) (index : nat) : outcome (list nat) :=
  match v_order v with
  | FirstMajor => divs index (g_shapeStrides (v_geo v))
  | LastMajor =>
      if Nat.eqb (v_dim v) 0 then Undef    (* j = dimension()-1 wraps around *)
      else r <- divs index (rev (g_shapeStrides (v_geo v))) ;; Ret (rev r)
  end.

(** marray.hxx:872-906, indexToOffset. *)
Fixpoint offs (index : nat) (ss strides : list nat) (out : nat) : outcome nat :=
  match ss, strides with
  | s :: ss', t :: strides' =>
      if Nat.eqb s 0 then Undef
      else offs (index mod s) ss' strides' (out + t * (index / s))
  | _, _ => Ret out
  end.
Definition indexToOffset (v : view) (index : nat) : outcome nat :=
  if v_simple v then Ret index
  else match v_order v with
       | FirstMajor => offs index (g_shapeStrides (v_geo v)) (v_strides v) 0
       | LastMajor => offs index (rev (g_shapeStrides (v_geo v))) (rev (v_strides v)) 0
       end.

(** marray.hxx:6457-6487, AccessOperatorHelper: v(index) and v(coordinates), as the address of
    the entry. *)
Definition deref (v : view) (offset : nat) : outcome nat :=
  match v_data v with
  | Some b => Ret (b + offset)
  | None => Undef
  end.
Definition at_index (v : view) (index : nat) : outcome nat :=
  o <- indexToOffset v index ;; deref v o.
Definition at_coord (v : view) (c : list nat) : outcome nat :=
  o <- coordinatesToOffset v c ;; deref v o.

(** Pointer plus offset. *)
Definition shift_ptr (p : option nat) (o : nat) : outcome (option nat) :=
  match p with
  | Some b => Ret (Some (b + o))
  | None => Undef
  end.

(** marray.hxx:925-1000 and 1118-1180, unstrided and strided views on given data. *)
Definition view_unstrided (shape : list nat) (data : option nat) (ext int : order) : outcome view :=
  g <- geo_unstrided shape ext int ;; Ret (View data g).
Definition view_strided (shape strides : list nat) (data : option nat) (int : order) : outcome view :=
  g <- geo_strided shape strides int ;; Ret (View data g).

(** marray.hxx:2000-2017, view(bit, sit, order, out): dimension() extents are taken from sit. *)
Definition sub_view (v : view) (base shape : list nat) (int : order) : outcome view :=
  o <- coordinatesToOffset v base ;;
  d <- shift_ptr (v_data v) o ;;
  sh <- mapM (rd shape) (seq 0 (v_dim v)) ;;
  view_strided sh (v_strides v) d int.

(** marray.hxx:2274-2290, reshape. *)
Definition reshape (v : view) (shape : list nat) : outcome view :=
  view_unstrided shape (v_data v) (v_order v) (v_order v).

(** Drop the entry of one dimension. *)
Definition drop_at {A} (d : nat) (l : list A) : list A := firstn d l ++ skipn (S d) l.

(** marray.hxx:2373-2408, boundView. *)
Definition boundView (v : view) (dimension value : nat) : outcome view :=
  if Nat.eqb (v_dim v) 1 then
    a <- at_index v value ;;
    Ret (View (Some a) (geo_scalar (v_order v)))
  else
    sd <- rd (v_shape v) dimension ;;
    st <- rd (v_strides v) dimension ;;
    let sh := drop_at dimension (v_shape v) in
    ss <- stridesFromShape sh (v_order v) ;;
    d <- shift_ptr (v_data v) (st * value) ;;
    if Nat.eqb sd 0 then Undef
    else Ret (View d (updateSimplicity
               (Geo sh ss (drop_at dimension (v_strides v)) (v_size v / sd) (v_order v) true))).

(** marray.hxx:2416-2448, squeeze: the entries of the other dimensions are moved to the front.
    When all dimensions are removed, neither the simplicity flag nor anything else is updated. *)
Definition squeeze (v : view) : outcome view :=
  let kept := filter (fun p => negb (Nat.eqb (fst p) 1)) (combine (v_shape v) (v_strides v)) in
  if Nat.eqb (length kept) (v_dim v) then Ret v
  else if Nat.eqb (length kept) 0 then
    Ret (View (v_data v) (Geo [] [] [] 1 (v_order v) (v_simple v)))
  else
    ss <- stridesFromShape (map fst kept) (v_order v) ;;
    Ret (View (v_data v) (updateSimplicity
           (Geo (map fst kept) ss (map snd kept) (v_size v) (v_order v) (v_simple v)))).

(** The geometry after a change of shape and strides: shape strides and simplicity are updated,
    the size is not (marray.hxx:2512-2515, 2585-2590, 2613-2617). *)
Definition regeo (v : view) (shape strides : list nat) : outcome view :=
  ss <- stridesFromShape shape (v_order v) ;;
  Ret (View (v_data v) (updateSimplicity (Geo shape ss strides (v_size v) (v_order v) (v_simple v)))).

(** marray.hxx:2478-2516, permute. *)
Definition permute (v : view) (p : list nat) : outcome view :=
  sh <- mapM (fun j => i <- rd p j ;; rd (v_shape v) i) (seq 0 (v_dim v)) ;;
  st <- mapM (fun j => i <- rd p j ;; rd (v_strides v) i) (seq 0 (v_dim v)) ;;
  regeo v sh st.

(** Exchange of two entries. *)
Definition swapM {A} (l : list A) (i j : nat) : outcome (list A) :=
  c <- rd l j ;;
  x <- rd l i ;;
  l1 <- wr l j x ;;
  wr l1 i c.

(** marray.hxx:2557-2591, transpose(c1, c2). *)
Definition transpose2 (v : view) (c1 c2 : nat) : outcome view :=
  sh <- swapM (v_shape v) c1 c2 ;;
  st <- swapM (v_strides v) c1 c2 ;;
  regeo v sh st.

(** marray.hxx:2598-2619, transpose(). *)
Definition transpose (v : view) : outcome view :=
  sh <- foldM (fun l j => swapM l (v_dim v - j - 1) j) (seq 0 (v_dim v / 2)) (v_shape v) ;;
  st <- foldM (fun l j => swapM l (v_dim v - j - 1) j) (seq 0 (v_dim v / 2)) (v_strides v) ;;
  regeo v sh st.

(** marray.hxx:2664-2690, shift; the recursion (at most two nested calls) is unrolled. *)
Definition shift0 (v : view) (n : Z) : outcome view :=
  permute v (map (fun j => Z.to_nat ((Z.of_nat j - n) mod Z.of_nat (v_dim v))) (seq 0 (v_dim v))).
Definition shift1 (v : view) (n : Z) : outcome view :=
  if (0 <? n)%Z then shift0 v (n - Z.of_nat (v_dim v)) else shift0 v n.
Definition shift (v : view) (n : Z) : outcome view :=
  let d := Z.of_nat (v_dim v) in
  if ((n <=? - d)%Z || (d <=? n)%Z)%bool then
    if (d =? 0)%Z then Undef    (* n % 0 *)
    else shift1 v (Z.rem n d)
  else shift1 v n.

(** Histories of view operations. *)
Inductive vop :=
| OpSub (base shape : list nat) (o : order)
| OpReshape (shape : list nat)
| OpBound (dimension value : nat)
| OpSqueeze
| OpPermute (p : list nat)
| OpTranspose2 (c1 c2 : nat)
| OpTranspose
| OpShift (n : Z).
Definition vstep (v : view) (op : vop) : outcome view :=
  match op with
  | OpSub b s o => sub_view v b s o
  | OpReshape s => reshape v s
  | OpBound d x => boundView v d x
  | OpSqueeze => squeeze v
  | OpPermute p => permute v p
  | OpTranspose2 a b => transpose2 v a b
  | OpTranspose => transpose v
  | OpShift n => shift v n
  end.
Definition vrun (ops : list vop) (v : view) : outcome view := foldM vstep ops v.

(** ** Iterator, marray.hxx:3980-4630 *)

(** The pointer is an integer: pointer arithmetic may leave the array. *)
Record iter := Iter { i_ptr : Z; i_index : nat; i_coord : list nat }.

(** marray.hxx:4048-4091 (and the same code in 4099-4183), construction at an index below the size;
    begin() is the iterator at index 0 (2720-2760). *)
Definition it_at (v : view) (index : nat) : outcome iter :=
  if Nat.eqb (v_size v) 0 then Ret (Iter 0 index (repeat 0 (v_dim v)))
  else if v_simple v then
    a <- at_index v 0 ;;
    Ret (Iter (Z.of_nat a + Z.of_nat index) index (repeat 0 (v_dim v)))
  else if Nat.leb (v_size v) index then
    (* end iterator, 4067-4080 *)
    a <- at_index v (v_size v - 1) ;;
    match v_shape v with
    | [] => Undef
    | s0 :: sh =>
        let c := match v_order v with
                 | LastMajor => s0 :: map (fun s => s - 1) sh
                 | FirstMajor => map (fun s => s - 1) (removelast (v_shape v)) ++ [last (v_shape v) 0]
                 end in
        Ret (Iter (Z.of_nat a + 1) index c)
    end
  else
    c <- indexToCoordinates v index ;;
    a <- at_index v index ;;
    Ret (Iter (Z.of_nat a) index c).

(** marray.hxx:4313-4325 and 4328-4346, carry over the coordinates in the order [js]. *)
Fixpoint it_carry (shape strides js : list nat) (p : Z) (c : list nat) : outcome (Z * list nat) :=
  match js with
  | [] => Ret (p, c)
  | j :: js' =>
      x <- rd c j ;;
      s <- rd shape j ;;
      t <- rd strides j ;;
      if Nat.eqb (S x) s then
        c' <- wr c j 0 ;;
        it_carry shape strides js' (p - Z.of_nat t * Z.of_nat x) c'
      else
        c' <- wr c j (S x) ;;
        Ret (p + Z.of_nat t, c')%Z
  end.

(** The dimension whose coordinate runs fastest, and the order in which carries proceed. *)
Definition it_dims (o : order) (dim : nat) : list nat :=
  match o with
  | LastMajor => seq 0 dim
  | FirstMajor => rev (seq 0 dim)
  end.
Definition it_fast (o : order) (dim : nat) : outcome nat :=
  match o with
  | LastMajor => Ret 0
  | FirstMajor => match dim with 0 => Undef | S d => Ret d end
  end.

(** marray.hxx:4302-4362, prefix increment. *)
Definition it_next (v : view) (i : iter) : outcome iter :=
  if Nat.ltb (i_index i) (v_size v) then
    let k := S (i_index i) in
    if v_simple v then Ret (Iter (i_ptr i + 1) k (i_coord i))
    else if Nat.ltb k (v_size v) then
      match v_order v, v_dim v with
      | FirstMajor, 0 => Undef
      | _, _ =>
          ' (p, c) <- it_carry (v_shape v) (v_strides v) (it_dims (v_order v) (v_dim v)) (i_ptr i) (i_coord i) ;;
          Ret (Iter p k c)
      end
    else
      a <- at_index v (v_size v - 1) ;;
      f <- it_fast (v_order v) (v_dim v) ;;
      x <- rd (i_coord i) f ;;
      c <- wr (i_coord i) f (S x) ;;
      Ret (Iter (Z.of_nat a + 1) k c)
  else Ret i.

(** marray.hxx:4388-4400 and 4403-4421, borrow over the coordinates. *)
Fixpoint it_borrow (shape strides js : list nat) (p : Z) (c : list nat) : outcome (Z * list nat) :=
  match js with
  | [] => Ret (p, c)
  | j :: js' =>
      x <- rd c j ;;
      s <- rd shape j ;;
      t <- rd strides j ;;
      match x with
      | 0 =>
          c' <- wr c j (s - 1) ;;
          it_borrow shape strides js' (p + Z.of_nat t * Z.of_nat (s - 1)) c'
      | S y =>
          c' <- wr c j y ;;
          Ret (p - Z.of_nat t, c')%Z
      end
  end.

(** marray.hxx:4366-4425, prefix decrement. The index is decremented before it is compared with the
    size, so the branch for the end iterator (4376-4385) is taken only from beyond the end: it is
    not modelled. Decrementing at index 0 wraps around. *)
Definition it_prev (v : view) (i : iter) : outcome iter :=
  match i_index i with
  | 0 => Undef
  | S k =>
      if v_simple v then Ret (Iter (i_ptr i - 1) k (i_coord i))
      else if Nat.eqb k (v_size v) then Undef
      else
        match v_order v, v_dim v with
        | FirstMajor, 0 => Undef
        | _, _ =>
            ' (p, c) <- it_borrow (v_shape v) (v_strides v) (it_dims (v_order v) (v_dim v)) (i_ptr i) (i_coord i) ;;
            Ret (Iter p k c)
        end
  end.

(** marray.hxx:4236-4277, operator+= with a non-negative distance. *)
Definition it_add (v : view) (i : iter) (x : nat) : outcome iter :=
  if Nat.ltb (i_index i) (v_size v) then
    let k := i_index i + x in
    if Nat.ltb k (v_size v) then
      if v_simple v then Ret (Iter (i_ptr i + Z.of_nat x) k (i_coord i))
      else
        a <- at_index v k ;;
        c <- indexToCoordinates v k ;;
        Ret (Iter (Z.of_nat a) k c)
    else if v_simple v then
      a <- at_index v 0 ;;
      Ret (Iter (Z.of_nat a + Z.of_nat (v_size v)) (v_size v) (i_coord i))
    else
      a <- at_index v (v_size v - 1) ;;
      c <- indexToCoordinates v (v_size v - 1) ;;
      f <- it_fast (v_order v) (v_dim v) ;;
      y <- rd c f ;;
      c' <- wr c f (S y) ;;
      Ret (Iter (Z.of_nat a + 1) (v_size v) c')
  else Ret i.

(** marray.hxx:4279-4299, operator-= with a non-negative distance. *)
Definition it_sub (v : view) (i : iter) (x : nat) : outcome iter :=
  if Nat.ltb (i_index i) x then Undef    (* the index wraps around *)
  else
    let k := i_index i - x in
    if v_simple v then Ret (Iter (i_ptr i - Z.of_nat x) k (i_coord i))
    else
      a <- at_index v k ;;
      c <- indexToCoordinates v k ;;
      Ret (Iter (Z.of_nat a) k c).

(** marray.hxx:4600-4630, coordinate(). *)
Definition it_coordinate (v : view) (i : iter) : outcome (list nat) :=
  if v_simple v then indexToCoordinates v (i_index i) else Ret (i_coord i).

(** marray.hxx:4586-4590, hasMore. *)
Definition it_hasMore (v : view) (i : iter) : bool := Nat.ltb (i_index i) (v_size v).

(** Histories of iterator operations. *)
Inductive iop := INext | IPrev | IAdd (x : nat) | ISub (x : nat).
Definition istep (v : view) (i : iter) (op : iop) : outcome iter :=
  match op with
  | INext => it_next v i
  | IPrev => it_prev v i
  | IAdd x => it_add v i x
  | ISub x => it_sub v i x
  end.
Definition irun (v : view) (ops : list iop) (i : iter) : outcome iter := foldM (istep v) ops i.

(** ** Memory operations *)

Section Memory.
Context {V : Type}.
(** The value of memory that has been allocated and not written. *)
Variable garbage : V.

Notation memory := (list V).

(** Reading and writing through the pointer of an iterator. *)
Definition rdZ (m : memory) (p : Z) : outcome V := if (p <? 0)%Z then Undef else rd m (Z.to_nat p).
Definition wrZ (m : memory) (p : Z) (x : V) : outcome memory := if (p <? 0)%Z then Undef else wr m (Z.to_nat p) x.

Definition alloc (m : memory) (n : nat) : nat * memory := (length m, m ++ repeat garbage n).

(** memcpy of n values between disjoint ranges, or the loop f(to[j], from[j]). *)
Definition copyM (f : V -> V -> V) (to from n : nat) (m : memory) : outcome memory :=
  foldM (fun m j => x <- rd m (to + j) ;; y <- rd m (from + j) ;; wr m (to + j) (f x y)) (seq 0 n) m.

(** marray.hxx:6252-6298, OperateHelperBinary: loop over the extent of dimension N-1 around the
    recursion on the dimensions below. *)
Fixpoint operate2 (f : V -> V -> V) (shape st1 st2 : list nat) (N d1 d2 : nat) (m : memory) : outcome memory :=
  match N with
  | 0 => x <- rd m d1 ;; y <- rd m d2 ;; wr m d1 (f x y)
  | S n =>
      s <- rd shape n ;;
      a <- rd st1 n ;;
      b <- rd st2 n ;;
      ' (_, _, m') <- foldM (fun (st : nat * nat * memory) (_ : nat) =>
          let '(d1, d2, m) := st in
          m' <- operate2 f shape st1 st2 n d1 d2 m ;;
          Ret (d1 + a, d2 + b, m')) (seq 0 s) (d1, d2, m) ;;
      Ret m'
  end.

(** marray.hxx:6205-6250, OperateHelperBinaryScalar. *)
Fixpoint operate1 (f : V -> V) (shape st : list nat) (N d : nat) (m : memory) : outcome memory :=
  match N with
  | 0 => x <- rd m d ;; wr m d (f x)
  | S n =>
      s <- rd shape n ;;
      a <- rd st n ;;
      ' (_, m') <- foldM (fun (st' : nat * memory) (_ : nat) =>
          let '(d, m) := st' in
          m' <- operate1 f shape st n d m ;;
          Ret (d + a, m')) (seq 0 s) (d, m) ;;
      Ret m'
  end.

(** marray.hxx:6344-6349, 6735-6741 and others: the loop with an iterator for each view. The fuel
    is one more than the size of the view that ends the loop. *)
Fixpoint iterate2 (fuel : nat) (f : V -> V -> V) (to from : view) (it itf : iter) (m : memory) : outcome memory :=
  match fuel with
  | 0 => Diverge
  | S k =>
      if it_hasMore from itf then
        x <- rdZ m (i_ptr it) ;;
        y <- rdZ m (i_ptr itf) ;;
        m' <- wrZ m (i_ptr it) (f x y) ;;
        itf' <- it_next from itf ;;
        it' <- it_next to it ;;
        iterate2 k f to from it' itf' m'
      else Ret m
  end.
Fixpoint iterate1 (fuel : nat) (f : V -> V) (to : view) (it : iter) (m : memory) : outcome memory :=
  match fuel with
  | 0 => Diverge
  | S k =>
      if it_hasMore to it then
        x <- rdZ m (i_ptr it) ;;
        m' <- wrZ m (i_ptr it) (f x) ;;
        it' <- it_next to it ;;
        iterate1 k f to it' m'
      else Ret m
  end.

(** marray.hxx:2929-2955, overlaps. *)
Definition overlaps (v w : view) : outcome bool :=
  match v_data v, v_data w with
  | Some p, Some q =>
      if (Nat.eqb (v_size v) 0 || Nat.eqb (v_size w) 0)%bool then Undef    (* size()-1 wraps around *)
      else
        maxp <- at_index v (v_size v - 1) ;;
        maxq <- at_index w (v_size w - 1) ;;
        Ret ((Nat.leb p q && Nat.leb q maxp) || (Nat.leb q p && Nat.leb p maxq))%bool
  | _, _ => Ret false
  end.

(** marray.hxx:3429-3465, Marray(const View&): the copy has the shape and order of the view. *)
Definition marray_of_view (v : view) (m : memory) : outcome (view * memory) :=
  let g := v_geo v in
  let g' := Geo (g_shape g) (g_shapeStrides g) (g_shapeStrides g) (g_size g) (g_order g) true in
  if Nat.eqb (v_size v) 0 then Ret (View None g', m)
  else
    let '(d, m1) := alloc m (v_size v) in
    match v_data v with
    | None => Undef
    | Some b =>
        m2 <- (if v_simple v then copyM (fun _ y => y) d b (v_size v) m1
               else
                 it <- it_at v 0 ;;
                 ' (_, m2) <- foldM (fun (st : iter * memory) j =>
                     let '(it, m) := st in
                     y <- rdZ m (i_ptr it) ;;
                     m' <- wr m (d + j) y ;;
                     it' <- it_next v it ;;
                     Ret (it', m')) (seq 0 (v_size v)) (it, m1) ;;
                 Ret m2) ;;
        Ret (View (Some d) g', m2)
    end.

(** The part of operate and of the assignment after the overlap test (6325-6349, 6704-6741): both
    views simple and in the same order, loop nest for dimensions 1 to 10, iterators otherwise. In
    [operate] the loop ends with the view written to, in the assignment with the view read. *)
Definition apply2 (f : V -> V -> V) (to from : view) (m : memory) : outcome memory :=
  if (order_eqb (v_order from) (v_order to) && v_simple from && v_simple to)%bool then
    a <- at_index to 0 ;;
    b <- at_index from 0 ;;
    copyM f a b (v_size from) m
  else if (Nat.leb 1 (v_dim from) && Nat.leb (v_dim from) 10)%bool then
    a <- at_index to 0 ;;
    b <- at_index from 0 ;;
    operate2 f (v_shape to) (v_strides to) (v_strides from) (v_dim from) a b m
  else
    itf <- it_at from 0 ;;
    it <- it_at to 0 ;;
    iterate2 (S (v_size from)) f to from it itf m.

(** marray.hxx:6300-6350, AssignmentOperatorHelper<false>::execute from constant to mutable, and
    6356-6411 from mutable to mutable when 'to' is initialised: 'to' takes the values of 'from'. *)
Definition assign_data (to from : view) (m : memory) : outcome memory :=
  b <- overlaps from to ;;
  if b then
    ' (t, m') <- marray_of_view from m ;;
    apply2 (fun _ y => y) to t m'
  else apply2 (fun _ y => y) to from m.

(** marray.hxx:6648-6744, operate(v, w, f) for views: v(c) = f(v(c), w(c)); a 0-dimensional w is
    a scalar. *)
Definition apply1 (f : V -> V) (v : view) (m : memory) : outcome memory :=
  if v_simple v then
    a <- at_index v 0 ;;
    foldM (fun m j => x <- rd m (a + j) ;; wr m (a + j) (f x)) (seq 0 (v_size v)) m
  else if (Nat.leb 1 (v_dim v) && Nat.leb (v_dim v) 10)%bool then
    a <- at_index v 0 ;;
    operate1 f (v_shape v) (v_strides v) (v_dim v) a m
  else
    it <- it_at v 0 ;;
    iterate1 (S (v_size v)) f v it m.
Definition operate_view (f : V -> V -> V) (v w : view) (m : memory) : outcome memory :=
  if Nat.eqb (v_dim w) 0 then
    a <- at_index w 0 ;;
    x <- rd m a ;;
    apply1 (fun y => f y x) v m
  else
    b <- overlaps v w ;;
    if b then
      ' (t, m') <- marray_of_view w m ;;
      apply2 f v t m'
    else apply2 f v w m.

(** marray.hxx:6582-6646, operate(v, x, f) for a scalar x, also 1923-1962, operator=(const T&). *)
Definition operate_scalar (f : V -> V) (v : view) (m : memory) : outcome memory := apply1 f v m.

(** ** Marray, marray.hxx:3340-3960 *)

(** marray.hxx:3516-3541, construction with a shape and an initial value. *)
Definition marray_new (shape : list nat) (value : V) (o : order) (m : memory) : outcome (view * memory) :=
  let size := fold_left Nat.mul shape 1 in
  v <- view_unstrided shape (Some (length m)) o o ;;
  Ret (v, m ++ repeat value size).

(** marray.hxx:3381-3396, scalar. *)
Definition marray_scalar (value : V) (o : order) (m : memory) : view * memory :=
  (View (Some (length m)) (geo_scalar o), m ++ [value]).

(** marray.hxx:3401-3421, copy constructor. *)
Definition marray_copy (a : view) (m : memory) : outcome (view * memory) :=
  match v_data a with
  | None => Ret (View None (v_geo a), m)
  | Some b =>
      let '(d, m1) := alloc m (v_size a) in
      m2 <- copyM (fun _ y => y) d b (v_size a) m1 ;;
      Ret (View (Some d) (v_geo a), m2)
  end.

(** marray.hxx:3633-3665, operator=(const Marray&) between different objects. *)
Definition marray_assign (a b : view) (m : memory) : outcome (view * memory) :=
  match v_data b with
  | None => Ret (View None (v_geo b), m)
  | Some q =>
      let '(d, m1) :=
        match v_data a with
        | Some p => if Nat.eqb (v_size a) (v_size b) then (p, m) else alloc m (v_size b)
        | None => alloc m (v_size b)
        end in
      m2 <- copyM (fun _ y => y) d q (v_size b) m1 ;;
      Ret (View (Some d) (v_geo b), m2)
  end.

(** marray.hxx:3681-3756, operator=(const View&) for a view of an initialised array. *)
Definition marray_assign_view (a v : view) (m : memory) : outcome (view * memory) :=
  match v_data v with
  | None => Ret (View None (v_geo v), m)
  | Some q =>
      b <- overlaps a v ;;
      if b then
        ' (t, m1) <- marray_of_view v m ;;
        marray_assign a t m1
      else
        let '(d, m1) :=
          match v_data a with
          | Some p => if Nat.eqb (v_size a) (v_size v) then (p, m) else alloc m (v_size v)
          | None => alloc m (v_size v)
          end in
        let g := v_geo v in
        let a' := View (Some d) (Geo (g_shape g) (g_shapeStrides g) (g_shapeStrides g) (g_size g) (g_order g) true) in
        m2 <- (if v_simple v then copyM (fun _ y => y) d q (v_size v) m1
               else if (Nat.leb 1 (v_dim v) && Nat.leb (v_dim v) 10)%bool then
                 s <- at_index v 0 ;;
                 operate2 (fun _ y => y) (g_shape g) (g_shapeStrides g) (g_strides g) (v_dim v) d s m1
               else
                 it <- it_at v 0 ;;
                 ' (_, m2) <- foldM (fun (st : iter * memory) j =>
                     let '(it, m) := st in
                     y <- rdZ m (i_ptr it) ;;
                     m' <- wr m (d + j) y ;;
                     it' <- it_next v it ;;
                     Ret (it', m')) (seq 0 (v_size v)) (it, m1) ;;
                 Ret m2) ;;
        Ret (a', m2)
  end.

(** marray.hxx:3818-3881, resizeHelper<false>. *)
Definition resizeHelper (a : view) (newShape : list nat) (value : V) (m : memory) : outcome (view * memory) :=
  let newSize := fold_left Nat.mul newShape 1 in
  let newData := length m in
  let m1 := m ++ repeat value newSize in
  m2 <- match v_data a with
        | None => Ret m1
        | Some p =>
            if (Nat.eqb newSize 1 || Nat.eqb (v_dim a) 0)%bool then
              x <- rd m1 p ;; wr m1 newData x
            else
              let k := Nat.min (v_dim a) (length newShape) in
              let overlap := map (fun p => Nat.min (fst p) (snd p)) (combine (v_shape a) newShape) in
              let shape1 := overlap ++ repeat 1 (v_dim a - k) in
              let shape2 := overlap ++ repeat 1 (length newShape - k) in
              view1 <- sub_view a (repeat 0 (v_dim a)) shape1 (v_order a) ;;
              viewT <- view_unstrided newShape (Some newData) (v_order a) (v_order a) ;;
              view2 <- sub_view viewT (repeat 0 (length newShape)) shape2 (v_order viewT) ;;
              view1 <- squeeze view1 ;;
              view2 <- squeeze view2 ;;
              assign_data view2 view1 m1
        end ;;
  v <- view_unstrided newShape (Some newData) (v_order a) (v_order a) ;;
  Ret (v, m2).

(** marray.hxx:3890-3914, resize; an array without dimensions keeps its first entry. *)
Definition resize (default : V) (a : view) (newShape : list nat) (value : V) (m : memory) : outcome (view * memory) :=
  match newShape with
  | [] =>
      ' (x, m) <- (if Nat.ltb 0 (v_size a) then
                     p <- at_index a 0 ;; x <- rd m p ;; Ret (x, m)
                   else Ret (default, m)) ;;
      let '(t, m1) := marray_scalar x defaultOrder m in
      marray_assign a t m1
  | _ => resizeHelper a newShape value m
  end.
End Memory.
