(** Specification vocabulary for multi-dimensional arrays and views: the numbering of the entries
    and, for each way of deriving a view, its shape and which entry each of its coordinates names. *)
From Coq Require Import Permutation.
From Verif Require Import Base ShapeSpec MarrayModel.

(** The number of an entry: first coordinate fastest in last major order, last coordinate fastest in
    first major order. *)
Definition number (o : order) (shape c : list nat) : nat :=
  match o with
  | LastMajor => index_of shape c
  | FirstMajor => index_of (rev shape) (rev c)
  end.

(** Shape of the view derived by an operation from a view of the given shape. *)
Definition exchange (a b j : nat) : nat := if Nat.eqb j a then b else if Nat.eqb j b then a else j.
Definition rotated (n : Z) (dim j : nat) : nat := Z.to_nat ((Z.of_nat j - n) mod Z.of_nat dim).
Definition select (l : list nat) (positions : list nat) : list nat := map (fun i => nth i l 0) positions.
Definition shape_after (op : vop) (shape : list nat) : list nat :=
  let dims := seq 0 (length shape) in
  match op with
  | OpSub _ s _ => s
  | OpReshape s => s
  | OpBound d _ => firstn d shape ++ skipn (S d) shape
  | OpSqueeze => filter (fun s => negb (Nat.eqb s 1)) shape
  | OpPermute p => select shape p
  | OpTranspose2 a b => select shape (map (exchange a b) dims)
  | OpTranspose => rev shape
  | OpShift n => select shape (map (rotated n (length shape)) dims)
  end.
Definition order_after (op : vop) (o : order) : order :=
  match op with
  | OpSub _ _ o' => o'
  | _ => o
  end.

(** [same_entry op o shape c c']: the coordinates [c'] of the derived view name the entry with the
    coordinates [c] of the view it is derived from. *)
Definition same_entry (op : vop) (o : order) (shape c c' : list nat) : Prop :=
  let dims := seq 0 (length shape) in
  match op with
  | OpSub b _ _ => c = map (fun p => fst p + snd p) (combine b c')
  | OpReshape s => number o shape c = number o s c'
  | OpBound d x => c = firstn d c' ++ x :: skipn d c'
  | OpSqueeze => c' = map snd (filter (fun p => negb (Nat.eqb (fst p) 1)) (combine shape c))
  | OpPermute p => c' = select c p
  | OpTranspose2 a b => c' = select c (map (exchange a b) dims)
  | OpTranspose => c' = rev c
  | OpShift n => c' = select c (map (rotated n (length shape)) dims)
  end.

(** When an operation may be applied to a view. *)
Definition legal_op (v : view) (op : vop) : Prop :=
  let shape := v_shape v in
  match op with
  | OpSub b s _ =>
      length b = length shape /\ length s = length shape /\ positive s /\
      forall j, j < length shape -> nth j b 0 + nth j s 0 <= nth j shape 0
  | OpReshape s => v_simple v = true /\ positive s /\ size_of s = size_of shape
  | OpBound d x => d < length shape /\ x < nth d shape 0
  | OpSqueeze => True
  | OpPermute p => shape <> [] /\ Permutation p (seq 0 (length shape))
  | OpTranspose2 a b => a < length shape /\ b < length shape
  | OpTranspose => shape <> []
  | OpShift _ => shape <> []
  end.
Fixpoint legal_ops (v : view) (ops : list vop) : Prop :=
  match ops with
  | [] => True
  | op :: rest => legal_op v op /\ forall v', vstep v op = Ret v' -> legal_ops v' rest
  end.

(** Whole histories. *)
Fixpoint shape_run (ops : list vop) (shape : list nat) : list nat :=
  match ops with
  | [] => shape
  | op :: rest => shape_run rest (shape_after op shape)
  end.
Fixpoint order_run (ops : list vop) (o : order) : order :=
  match ops with
  | [] => o
  | op :: rest => order_run rest (order_after op o)
  end.
Fixpoint same_entry_run (ops : list vop) (o : order) (shape c c' : list nat) : Prop :=
  match ops with
  | [] => c = c'
  | op :: rest => exists d, in_shape (shape_after op shape) d /\ same_entry op o shape c d /\
                            same_entry_run rest (order_after op o) (shape_after op shape) d c'
  end.

(** The operations that keep every entry. *)
Definition keeps_all (op : vop) : bool :=
  match op with
  | OpSub _ _ _ => false
  | OpBound _ _ => false
  | _ => true
  end.

(** ** Iteration *)
(** An iterator can be put on the view: its entries are known to lie one after the other, or it has
    a dimension. *)
Definition iterable (v : view) : Prop := v_simple v = true \/ v_shape v <> [].

(** The position of an iterator in the sequence of the entries; the end is one behind the last. *)
Definition position_after (size k : nat) (op : iop) : nat :=
  match op with
  | INext => Nat.min size (S k)
  | IAdd x => Nat.min size (k + x)
  | IPrev => k - 1
  | ISub x => k - x
  end.
(** Going back must not leave the sequence and, unless the entries of the view are known to lie one
    after the other, single steps back must not start from the end. *)
Definition legal_iop (v : view) (k : nat) (op : iop) : Prop :=
  match op with
  | INext => True
  | IAdd _ => True
  | IPrev => 0 < k /\ (k < v_size v \/ v_simple v = true)
  | ISub x => x <= k /\ (k - x < v_size v \/ v_simple v = true)
  end.
Fixpoint legal_iops (v : view) (k : nat) (ops : list iop) : Prop :=
  match ops with
  | [] => True
  | op :: rest => legal_iop v k op /\ legal_iops v (position_after (v_size v) k op) rest
  end.

(** ** Memory *)
(** The entry a view shows at some coordinates. *)
Definition entry {V} (m : list V) (v : view) (c : list nat) : option V :=
  match at_coord v c with Ret a => nth_error m a | _ => None end.
(** The address belongs to an entry of the view. *)
Definition touches (v : view) (a : nat) : Prop := exists c, in_shape (v_shape v) c /\ at_coord v c = Ret a.
(** [v] is derived, by some history of operations, from a view of a block of the memory. *)
Definition view_of {V} (m : list V) (v : view) : Prop :=
  exists b shape o int v0 ops, positive shape /\ b + size_of shape <= length m /\
    view_unstrided shape (Some b) o int = Ret v0 /\ legal_ops v0 ops /\ vrun ops v0 = Ret v.
(** [a] is an array with the given block of the memory. *)
Definition block {V} (m : list V) (b : nat) (sh : list nat) (o : order) (a : view) : Prop :=
  positive sh /\ b + size_of sh <= length m /\ view_unstrided sh (Some b) o o = Ret a.

(** ** Resizing *)
(** Coordinates of arrays that may have different numbers of dimensions; missing ones are 0. *)
Definition corresponds (c c' : list nat) : Prop := forall j, nth j c 0 = nth j c' 0.
(** All extents but that of the slowest dimension are 1. *)
Definition lined (o : order) (shape : list nat) : Prop :=
  match o with
  | LastMajor => forall j, S j < length shape -> nth j shape 0 = 1
  | FirstMajor => forall j, S j < length shape -> nth (S j) shape 0 = 1
  end.
(** The shapes between which an array can be resized: no dimensions before, one entry after, more
    than one common entry, or entries along the slowest dimension only. *)
Definition resizable (o : order) (sh sh' : list nat) : Prop :=
  sh = [] \/ size_of sh' = 1 \/ (exists j, 1 < nth j sh 0 /\ 1 < nth j sh' 0) \/ (lined o sh /\ lined o sh').
