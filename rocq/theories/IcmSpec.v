(** Vocabulary for statements about ICM. *)
From Verif Require Import Base Values GmView GmViewSpec ShapeSpec MovemakerModel MovemakerSpec IcmModel.

(** No relabeling of a single variable is strictly better. *)
Definition locally_optimal {T : Type} (OP : oper T) (ACC : accum T) (g : gmv T) (x : list nat) : Prop :=
  forall v s, v < length (v_labels g) -> s < nth v (v_labels g) 0 ->
    a_bop ACC (total OP g (relabel x [v] [s])) (total OP g x) = false.

(** No joint relabeling of the variables of one factor is strictly better. *)
Definition factor_optimal {T : Type} (OP : oper T) (ACC : accum T) (g : gmv T) (x : list nat) : Prop :=
  forall fc c, In fc (v_factors g) -> in_shape (labels_of g (fst fc)) c ->
    a_bop ACC (total OP g (relabel x (fst fc) c)) (total OP g x) = false.

(** The labeling [y] is [x] or strictly better. *)
Definition not_worse {T : Type} (OP : oper T) (ACC : accum T) (g : gmv T) (x y : list nat) : Prop :=
  y = x \/ a_bop ACC (total OP g y) (total OP g x) = true.

(** Parameters and calls the interface allows: the start point is absent or a labeling. *)
Definition start_legal {T : Type} (g : gmv T) (startPoint : list nat) : Prop := startPoint = [] \/ labeling g startPoint.
Definition iclegal {T : Type} (g : gmv T) (o : icop) : Prop := match o with IcSet x => labeling g x | _ => True end.
Definition start_of {T : Type} (g : gmv T) (startPoint : list nat) : list nat :=
  match startPoint with [] => repeat 0 (length (v_labels g)) | _ => startPoint end.
