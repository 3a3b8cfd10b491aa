(** Specification vocabulary for shapes and coordinates: number of coordinate tuples, mixed radix
    numbering with the first coordinate fastest. *)
From Verif Require Import Base.

(** Number of coordinate tuples of a shape. *)
Definition size_of (shape : list nat) : nat := fold_right Nat.mul 1 shape.

(** A coordinate tuple lies in a shape. *)
Definition in_shape (shape c : list nat) : Prop := Forall2 lt c shape.

(** All extents are positive. *)
Definition positive (shape : list nat) : Prop := Forall (fun s => 0 < s) shape.

(** The k-th coordinate tuple, first coordinate fastest. *)
Fixpoint coord_of (shape : list nat) (k : nat) : list nat :=
  match shape with
  | [] => []
  | s :: shape' => k mod s :: coord_of shape' (k / s)
  end.

(** The number of a coordinate tuple. *)
Fixpoint index_of (shape c : list nat) : nat :=
  match shape, c with
  | s :: shape', x :: c' => x + s * index_of shape' c'
  | _, _ => 0
  end.
