(** Value types used to instantiate the templates: extended integers with the IEEE rules for
    infinities and NaN (used wherever infinities matter), and records for OperatorType and
    AccumulationType. Rounding is not modelled. *)
From Verif Require Import Base.

Inductive ext := Fin (z : Z) | PInf | NInf | NaN.

Definition ext_add (a b : ext) : ext :=
  match a, b with
  | NaN, _ | _, NaN => NaN
  | PInf, NInf | NInf, PInf => NaN
  | PInf, _ | _, PInf => PInf
  | NInf, _ | _, NInf => NInf
  | Fin x, Fin y => Fin (x + y)
  end.
Definition ext_opp (a : ext) : ext :=
  match a with Fin x => Fin (- x) | PInf => NInf | NInf => PInf | NaN => NaN end.
Definition ext_sub (a b : ext) : ext := ext_add a (ext_opp b).
(** operator< ; every comparison with NaN is false. *)
Definition ext_lt (a b : ext) : bool :=
  match a, b with
  | NaN, _ | _, NaN => false
  | Fin x, Fin y => Z.ltb x y
  | NInf, NInf => false
  | NInf, _ => true
  | _, NInf => false
  | PInf, _ => false
  | _, PInf => true
  end.

(** An OperatorType on a value type: op(in,out) and iop(in,out) return the new out. *)
Record oper (T : Type) := mkOper { o_neutral : T; o_op : T -> T -> T; o_iop : T -> T -> T }.
Arguments mkOper {T}. Arguments o_neutral {T}. Arguments o_op {T}. Arguments o_iop {T}.

(** An AccumulationType with a boolean operation. *)
Record accum (T : Type) := mkAccum {
  a_neutral : T; a_ineutral : T; a_op : T -> T -> T; a_iop : T -> T -> T;
  a_bop : T -> T -> bool; a_ibop : T -> T -> bool }.
Arguments mkAccum {T}. Arguments a_neutral {T}. Arguments a_ineutral {T}. Arguments a_op {T}.
Arguments a_iop {T}. Arguments a_bop {T}. Arguments a_ibop {T}.
