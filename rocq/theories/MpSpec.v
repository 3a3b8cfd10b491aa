(** Vocabulary for statements about message passing: the laws of the two operations, and marginals. *)
From Coq Require Import Relations.
From Verif Require Import Base Values GmView GmViewSpec ShapeSpec FactorOpsSpec FactorGraphSpec MpModel.

(** The operation and the accumulation form a commutative semiring on the values [fin] (the neutral element of the
    accumulation need not be one of them, as infinity for the minimum).  Examples: + and min, + and max, * and +, * and max. *)
Record semiring_laws {T : Type} (fin : T -> Prop) (OP : oper T) (ACC : accum T) : Prop := {
  sl_neutral : fin (o_neutral OP);
  sl_op : forall a b, fin a -> fin b -> fin (o_op OP a b);
  sl_comm : forall a b, fin a -> fin b -> o_op OP a b = o_op OP b a;
  sl_assoc : forall a b c, fin a -> fin b -> fin c -> o_op OP a (o_op OP b c) = o_op OP (o_op OP a b) c;
  sl_unit : forall a, fin a -> o_op OP (o_neutral OP) a = a;
  sl_acc : forall a b, fin a -> fin b -> fin (a_op ACC a b);
  sl_acomm : forall a b, fin a -> fin b -> a_op ACC a b = a_op ACC b a;
  sl_aassoc : forall a b c, fin a -> fin b -> fin c -> a_op ACC a (a_op ACC b c) = a_op ACC (a_op ACC a b) c;
  sl_aneutral : forall a, fin a -> a_op ACC a (a_neutral ACC) = a;
  sl_dist : forall a b c, fin a -> fin b -> fin c -> o_op OP c (a_op ACC a b) = a_op ACC (o_op OP c a) (o_op OP c b) }.

(** An invertible value. *)
Definition invertible {T : Type} (fin : T -> Prop) (OP : oper T) (k : T) : Prop :=
  fin k /\ exists k', fin k' /\ o_op OP k k' = o_neutral OP.

(** The inverse operation with a value by which normalization divides is the operation with its inverse. *)
Definition division_laws {T : Type} (fin : T -> Prop) (OP : oper T) (mult : bool) (small : T -> bool) : Prop :=
  forall v, fin v -> mult && small v = false ->
    exists k, fin k /\ o_op OP k v = o_neutral OP /\ forall a, fin a -> o_iop OP v a = o_op OP k a.

Section Marginals.
Context {T : Type}.
Variables (OP : oper T) (ACC : accum T) (g : gmv T).

Definition labels_at (v : nat) : nat := nth v (v_labels g) 0.
(** A labeling gives every variable one of its labels. *)
Definition legal_at (x : nat -> nat) : Prop := legal labels_at (seq 0 (length (v_labels g))) x.
(** The value of a labeling: all factors combined. *)
Definition value_at (x : nat -> nat) : T := total OP g (map x (seq 0 (length (v_labels g)))).
(** The variables that are not in [S]. *)
Definition outside (S : list nat) : list nat :=
  filter (fun v => negb (existsb (Nat.eqb v) S)) (seq 0 (length (v_labels g))).
(** The marginal of the variables [S] at [x]: the values of all labelings that agree with [x] on [S], accumulated. *)
Definition marginal_of (S : list nat) (x : nat -> nat) : T :=
  accumulate_values T (a_op ACC) (a_neutral ACC) (values_over T labels_at (outside S) value_at x).

(** [out] holds the marginal of the variables [S], one value for each tuple of their labels, first variable fastest,
    up to the common value [c]. *)
Definition marginal_table (S : list nat) (out : list T) (c : T) : Prop :=
  Forall2 (fun lab value => forall x, legal_at x -> map x S = lab -> marginal_of S x = o_op OP c value)
          (tuples labels_at S) out.

(** No cycle of variables and factors. *)
Definition acyclic : Prop := forall c, ~ cycle (FactorGraphSpec.edge (fgraph_of T g)) c.
(** Every variable and every factor is joined with every other one. *)
Definition connected : Prop := forall a b,
  (match a with NV v => v < length (v_labels g) | NF f => f < length (v_factors g) end) ->
  (match b with NV v => v < length (v_labels g) | NF f => f < length (v_factors g) end) ->
  clos_refl_trans node (FactorGraphSpec.edge (fgraph_of T g)) a b.
End Marginals.

(** A history of an object: inference with a visitor, given by the calls at which it stops, and reset. *)
Inductive mp_op := MpInfer (stop : nat -> bool) | MpReset.
Definition never : nat -> bool := fun _ => false.

Section History.
Variable T : Type.
Variables (OP : oper T) (ACC : accum T) (mult : bool) (small : T -> bool) (wmean : T -> T -> T -> T) (nonzero : T -> bool)
  (dist : list T -> list T -> T) (gtv : T -> T -> bool) (zero : T) (g : gmv T)
  (maxSteps : nat) (bound damping : T) (sequential : bool) (order : list nat).
Definition mp_step (s : mp T) (o : mp_op) : outcome (mp T) :=
  match o with
  | MpInfer stop => mp_infer T OP ACC mult small wmean nonzero dist gtv zero g stop maxSteps bound damping sequential order s
  | MpReset => mp_reset T OP g s
  end.
(** The object after its construction with the two parameters and after the history. *)
Definition mp_run (acyclic norm : tribool) (ops : list mp_op) : outcome (mp T) :=
  s <- mp_new T OP g acyclic norm ;; foldM mp_step ops s.
End History.
