(** Vocabulary for statements about inference algorithms: well-formed models, the value of a labeling,
    and the laws of the value type, the operation and the accumulation. *)
From Verif Require Import Base Values GmView ShapeSpec.
From Coq Require Import Sorted.

(** The labels of a factor's variables. *)
Definition at_vars (x vis : list nat) : list nat := map (fun v => nth v x 0) vis.

(** Factors have strictly increasing variables that exist; every variable has a label. *)
Definition wf_gmv {T : Type} (g : gmv T) : Prop :=
  Forall (fun fc => StronglySorted lt (fst fc) /\ Forall (fun v => v < length (v_labels g)) (fst fc)) (v_factors g) /\
  positive (v_labels g).

(** A labeling of a model. *)
Definition labeling {T : Type} (g : gmv T) (x : list nat) : Prop := in_shape (v_labels g) x.

(** The value of a labeling: all factors combined. *)
Definition total {T : Type} (OP : oper T) (g : gmv T) (x : list nat) : T :=
  fold_left (fun acc fc => o_op OP (snd fc (at_vars x (fst fc))) acc) (v_factors g) (o_neutral OP).

(** Values on which the operation is a commutative group (for Adder: the finite numbers; rounding is
    not modelled). *)
Record op_laws {T : Type} (fin : T -> Prop) (OP : oper T) : Prop := {
  ol_neutral : fin (o_neutral OP);
  ol_op : forall a b, fin a -> fin b -> fin (o_op OP a b);
  ol_iop : forall a b, fin a -> fin b -> fin (o_iop OP a b);
  ol_comm : forall a b, fin a -> fin b -> o_op OP a b = o_op OP b a;
  ol_assoc : forall a b c, fin a -> fin b -> fin c -> o_op OP a (o_op OP b c) = o_op OP (o_op OP a b) c;
  ol_unit : forall a, fin a -> o_op OP (o_neutral OP) a = a;
  ol_undo : forall a b, fin a -> fin b -> o_iop OP a (o_op OP a b) = b;
  ol_redo : forall a b, fin a -> fin b -> o_op OP a (o_iop OP a b) = b }.

(** "Better" is a strict weak order that the operation respects. *)
Record acc_laws {T : Type} (fin : T -> Prop) (OP : oper T) (ACC : accum T) : Prop := {
  al_irrefl : forall a, fin a -> a_bop ACC a a = false;
  al_trans : forall a b c, fin a -> fin b -> fin c -> a_bop ACC a b = true -> a_bop ACC b c = true -> a_bop ACC a c = true;
  al_negtrans : forall a b c, fin a -> fin b -> fin c -> a_bop ACC a b = false -> a_bop ACC b c = false -> a_bop ACC a c = false;
  al_mono : forall a b c, fin a -> fin b -> fin c -> a_bop ACC (o_op OP c a) (o_op OP c b) = a_bop ACC a b }.

(** Accumulating keeps the better value; the neutral element is worse than every value. *)
Record acc_select {T : Type} (fin : T -> Prop) (ACC : accum T) : Prop := {
  al_op : forall a b, fin a -> fin b ->
            (a_bop ACC a b = true -> a_op ACC a b = a) /\ (a_bop ACC a b = false -> a_op ACC a b = b);
  al_neutral : forall a, fin a -> a_bop ACC a (a_neutral ACC) = true /\ a_op ACC a (a_neutral ACC) = a }.

(** All values of a model, at labelings, are such values. *)
Definition fin_gmv {T : Type} (fin : T -> Prop) (g : gmv T) : Prop :=
  Forall (fun fc => forall x, labeling g x -> fin (snd fc (at_vars x (fst fc)))) (v_factors g).

(** A labeling that no other labeling beats. *)
Definition optimal {T : Type} (OP : oper T) (ACC : accum T) (g : gmv T) (x : list nat) : Prop :=
  labeling g x /\ forall y, labeling g y -> a_bop ACC (total OP g y) (total OP g x) = false.
