(** Model of include/opengm/operations/: each operation as a function of its arguments returning
    the value written to [out]. Value types are parameters with the C++ operators the code uses. *)
From Verif Require Import Base Values.

(** ** Arithmetic operators of the value type *)
Section Arith.
Variables (T : Type) (zero one : T) (add sub mul div : T -> T -> T) (lt : T -> T -> bool).
Variables (inf ninf : T).   (* std::numeric_limits<T>::infinity() and its negation *)

(** adder.hxx:12-20 neutral, 22-30 ineutral *)
Definition Adder_neutral : T := zero.
Definition Adder_ineutral : T := zero.
(** adder.hxx:32-35, op(in,out): out += in *)
Definition Adder_op2 (a out : T) : T := add out a.
(** adder.hxx:37-40, op(in1,in2,out): out = in1 + in2 *)
Definition Adder_op3 (in1 in2 : T) : T := add in1 in2.
(** adder.hxx:42-50, iop *)
Definition Adder_iop2 (a out : T) : T := sub out a.
Definition Adder_iop3 (in1 in2 : T) : T := sub in1 in2.
(** adder.hxx:56-74, hop and ihop *)
Definition Adder_hop2 (a out : T) : T := mul out a.
Definition Adder_hop3 (in1 in2 : T) : T := mul in1 in2.
Definition Adder_ihop2 (a out : T) : T := div out a.
Definition Adder_ihop3 (in1 in2 : T) : T := div in1 in2.
Definition Adder : oper T := mkOper Adder_neutral Adder_op2 Adder_iop2.

(** multiplier.hxx:14-32, neutral and ineutral *)
Definition Multiplier_neutral : T := one.
Definition Multiplier_ineutral : T := one.
(** multiplier.hxx:34-52, op and iop *)
Definition Multiplier_op2 (a out : T) : T := mul out a.
Definition Multiplier_op3 (in1 in2 : T) : T := mul in1 in2.
Definition Multiplier_iop2 (a out : T) : T := div out a.
Definition Multiplier_iop3 (in1 in2 : T) : T := div in1 in2.
(** multiplier.hxx:58-93, hop and ihop: PowFunctor applied to out (in-place) or in1 *)
Variable pow : T -> T -> T.
Definition Multiplier_hop2 (in1 out : T) : T := pow out in1.
Definition Multiplier_hop3 (in1 in2 : T) : T := pow in1 in2.
Definition Multiplier_ihop2 (in1 out : T) : T := pow out (div one in1).
Definition Multiplier_ihop3 (in1 in2 : T) : T := pow in1 (div one in2).
Definition Multiplier : oper T := mkOper Multiplier_neutral Multiplier_op2 Multiplier_iop2.

(** minimizer.hxx:14-30, neutral and ineutral *)
Definition Minimizer_neutral : T := inf.
Definition Minimizer_ineutral : T := ninf.
(** minimizer.hxx:32-39, op: [x > y] is [lt y x] *)
Definition Minimizer_op2 (in1 out : T) : T := if lt out in1 then out else in1.
Definition Minimizer_op3 (in1 in2 : T) : T := if lt in1 in2 then in1 else in2.
(** minimizer.hxx:41-48, iop *)
Definition Minimizer_iop2 (in1 out : T) : T := if lt in1 out then out else in1.
Definition Minimizer_iop3 (in1 in2 : T) : T := if lt in2 in1 then in1 else in2.
(** minimizer.hxx:54-62, bop, ibop *)
Definition Minimizer_bop (in1 in2 : T) : bool := lt in1 in2.
Definition Minimizer_ibop (in1 in2 : T) : bool := lt in2 in1.
Definition Minimizer : accum T :=
  mkAccum Minimizer_neutral Minimizer_ineutral Minimizer_op2 Minimizer_iop2 Minimizer_bop Minimizer_ibop.

(** maximizer.hxx:12-30, neutral and ineutral *)
Definition Maximizer_neutral : T := ninf.
Definition Maximizer_ineutral : T := inf.
(** maximizer.hxx:32-40, op *)
Definition Maximizer_op2 (in1 out : T) : T := if lt in1 out then out else in1.
Definition Maximizer_op3 (in1 in2 : T) : T := if lt in2 in1 then in1 else in2.
(** maximizer.hxx:42-50, iop *)
Definition Maximizer_iop2 (in1 out : T) : T := if lt out in1 then out else in1.
Definition Maximizer_iop3 (in1 in2 : T) : T := if lt in1 in2 then in1 else in2.
(** maximizer.hxx:56-64, bop, ibop *)
Definition Maximizer_bop (in1 in2 : T) : bool := lt in2 in1.
Definition Maximizer_ibop (in1 in2 : T) : bool := lt in1 in2.
Definition Maximizer : accum T :=
  mkAccum Maximizer_neutral Maximizer_ineutral Maximizer_op2 Maximizer_iop2 Maximizer_bop Maximizer_ibop.

(** integrator.hxx:15-32, neutral and ineutral *)
Definition Integrator_neutral : T := zero.
Definition Integrator_ineutral : T := inf.
(** integrator.hxx:35-37 and 40-42: [out = in1, out += in2] is two assignments *)
Definition Integrator_op2 (in1 out : T) : T := add out in1.
Definition Integrator_op3 (in1 in2 : T) : T := add in1 in2.
(** integrator.hxx:45-47: the expression statement [out - in1;] leaves out unchanged *)
Definition Integrator_iop2 (in1 out : T) : T := out.
(** integrator.hxx:50-52 *)
Definition Integrator_iop3 (in1 in2 : T) : T := sub in1 in2.
(** integrator.hxx:59-66 *)
Definition Integrator_bop (in1 in2 : T) : bool := false.
Definition Integrator_ibop (in1 in2 : T) : bool := false.

(** logsumexp.hxx:16-33 *)
Definition Logsumexp_neutral : T := ninf.
Definition Logsumexp_ineutral : T := inf.
(** std::max(a,b) = a<b ? b : a; std::min(a,b) = b<a ? b : a *)
Definition std_max (a b : T) : T := if lt a b then b else a.
Definition std_min (a b : T) : T := if lt b a then b else a.
(** logsumexp.hxx:36-43, op(in1,out); [log1pexp x] is log(1 + exp(x)) *)
Variable log1pexp : T -> T.
Definition Logsumexp_op2 (in1 out : T) : T :=
  let theMax := std_max in1 out in
  let theMin := std_min in1 out in
  add theMax (log1pexp (sub theMin theMax)).
(** logsumexp.hxx:46-53, op(in1,in2,out): the old value of out is used, in2 is not. *)
Definition Logsumexp_op3 (in1 in2 out : T) : T :=
  let theMax := std_max in1 out in
  let theMin := std_min in1 out in
  add theMax (log1pexp (sub theMin theMax)).

(** weightedoperations.hxx:10-22, weightedMean for OP given by its hop, op and iop (in-place) *)
Variables (OP_op OP_iop OP_hop : T -> T -> T).
Definition weightedMean (in1 in2 w : T) : T :=
  let out := in1 in
  let out := OP_iop in2 out in
  let out := OP_hop w out in
  OP_op in2 out.
(** weightedoperations.hxx:24-34 *)
Definition wop (a w out : T) : T := let t := OP_hop w a in OP_op t out.
(** weightedoperations.hxx:36-47 *)
Definition iwop (a w out : T) : T := let v := div one w in let t := OP_hop v a in OP_op t out.
(** weightedoperations.hxx:49-59 *)
Definition wiop (a w out : T) : T := let t := OP_hop w a in OP_iop t out.
(** weightedoperations.hxx:61-72 *)
Definition iwiop (a w out : T) : T := let v := div one w in let t := OP_hop v a in OP_iop t out.
End Arith.

(** ** And, Or (and.hxx:10-51, or.hxx:10-61), the overloads for bool *)
Definition And_neutral : bool := true.
Definition And_op2 (a out : bool) : bool := andb out a.
Definition And_op3 (in1 in2 : bool) : bool := andb in1 in2.
Definition And_bop (in1 in2 : bool) : bool := andb in1 in2.
Definition And_ibop (in1 in2 : bool) : bool := negb (andb in1 in2).
Definition Or_neutral : bool := false.
Definition Or_ineutral : bool := true.
Definition Or_op2 (a out : bool) : bool := orb out a.
Definition Or_op3 (in1 in2 : bool) : bool := orb in1 in2.
Definition Or_bop (in1 in2 : bool) : bool := orb in1 in2.
Definition Or_ibop (in1 in2 : bool) : bool := negb (orb in1 in2).
(** the templates for unsigned integer types (bitwise); static_cast<T>(true) is 1 *)
Definition AndN_neutral : N := 1%N.
Definition AndN_op2 (a out : N) : N := N.land out a.
Definition AndN_op3 (in1 in2 : N) : N := N.land in1 in2.
Definition AndN_bop (in1 in2 : N) : bool := negb (N.eqb (N.land in1 in2) 0).
Definition OrN_neutral : N := 0%N.
Definition OrN_op2 (a out : N) : N := N.lor out a.
Definition OrN_op3 (in1 in2 : N) : N := N.lor in1 in2.
Definition OrN_bop (in1 in2 : N) : bool := negb (N.eqb (N.lor in1 in2) 0).

(** The instances used for double-like values with infinities. *)
Definition MinimizerE : accum ext := Minimizer ext ext_lt PInf NInf.
Definition MaximizerE : accum ext := Maximizer ext ext_lt PInf NInf.
Definition AdderE : oper ext := Adder ext (Fin 0) ext_add ext_sub.
(** For integer value types numeric_limits<T>::infinity() is 0 (has_infinity is false). *)
Definition MinimizerZ : accum Z := Minimizer Z Z.ltb 0%Z 0%Z.
Definition MaximizerZ : accum Z := Maximizer Z Z.ltb 0%Z 0%Z.
Definition AdderZ : oper Z := Adder Z 0%Z Z.add Z.sub.
