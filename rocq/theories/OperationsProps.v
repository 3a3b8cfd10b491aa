(** C10: the algebra of the operations. Closed statements about extended integers (IEEE rules for
    infinities and NaN), rationals and booleans; real valued ones are in OperationsRealProps.v. *)
From Coq Require Import Qcanon Field.
From Verif Require Import Base Values OperationsModel.

Ltac ext_cases := intros; repeat match goal with a : ext |- _ => destruct a end.
Ltac ext_solve := ext_cases;
  repeat (cbn [ext_lt] in *;
    match goal with
    | |- context [Z.ltb ?a ?b] => destruct (Z.ltb_spec a b)
    | H : context [Z.ltb ?a ?b] |- _ => destruct (Z.ltb_spec a b)
    end);
  cbn in *; try congruence; try lia; auto; try (f_equal; lia).

Notation fin x := (match x with Fin _ => True | _ => False end).
Notation not_nan x := (x <> NaN).

(** Adder: commutative monoid on all values; iop undoes op for finite operands; in-place and
    out-of-place forms agree. *)
Theorem C10_adder :
  let op := Adder_op2 ext ext_add in let iop := Adder_iop2 ext ext_sub in
  let e := Adder_neutral ext (Fin 0) in
  (forall a b, op a b = op b a) /\
  (forall a b c, op a (op b c) = op (op a b) c) /\
  (forall a, op e a = a) /\ (forall a, iop e a = a) /\
  (forall a b, fin a -> iop a (op a b) = b) /\
  (forall a b, fin a -> op a (iop a b) = b) /\
  (forall a b, Adder_op3 ext ext_add a b = op b a) /\
  (forall a b, Adder_iop3 ext ext_sub a b = iop b a).
Proof.
  cbn. unfold Adder_op2, Adder_iop2, Adder_neutral, Adder_op3, Adder_iop3, ext_sub.
  repeat split; ext_solve; try contradiction; try (destruct z; reflexivity).
Qed.
Print Assumptions C10_adder.

(** For an infinite operand iop does not undo op. *)
Theorem C10_adder_infinite_refuted : exists a b, not_nan a /\ fin b /\
  Adder_iop2 ext ext_sub a (Adder_op2 ext ext_add a b) <> b.
Proof. exists PInf, (Fin 1). cbn. repeat split; discriminate. Qed.

(** Multiplier on rationals. *)
Theorem C10_multiplier :
  let op := Multiplier_op2 Qc Qcmult in let iop := Multiplier_iop2 Qc Qcdiv in
  let e := Multiplier_neutral Qc (Q2Qc 1) in
  (forall a b, op a b = op b a) /\
  (forall a b c, op a (op b c) = op (op a b) c) /\
  (forall a, op e a = a) /\ (forall a, iop e a = a) /\
  (forall a b, a <> Q2Qc 0 -> iop a (op a b) = b) /\
  (forall a b, a <> Q2Qc 0 -> op a (iop a b) = b) /\
  (forall a b, Multiplier_op3 Qc Qcmult a b = op b a) /\
  (forall a b, Multiplier_iop3 Qc Qcdiv a b = iop b a).
Proof.
  cbn. unfold Multiplier_op2, Multiplier_iop2, Multiplier_neutral, Multiplier_op3, Multiplier_iop3.
  repeat split; intros; try ring; try (field; auto; discriminate).
Qed.
Print Assumptions C10_multiplier.

(** Division by the operand 0 does not undo multiplication by 0. *)
Theorem C10_multiplier_zero_refuted : exists b,
  Multiplier_iop2 Qc Qcdiv (Q2Qc 0) (Multiplier_op2 Qc Qcmult (Q2Qc 0) b) <> b.
Proof. exists (Q2Qc 1). intros H. discriminate H. Qed.

(** An accumulation that selects the better of two values with respect to a strict order
    [better], whose neutral element never wins. *)
Definition selects (A : accum ext) (better : ext -> ext -> Prop) : Prop :=
  (forall a b, a_bop A a b = true <-> better a b) /\
  (forall a b, a_ibop A a b = true <-> better b a) /\
  (forall a b, not_nan a -> not_nan b ->
     (a_op A a b = a \/ a_op A a b = b) /\ ~ better a (a_op A a b) /\ ~ better b (a_op A a b)) /\
  (forall a b, not_nan a -> not_nan b ->
     (a_iop A a b = a \/ a_iop A a b = b) /\ ~ better (a_iop A a b) a /\ ~ better (a_iop A a b) b) /\
  (forall a b, not_nan a -> not_nan b -> a_op A a b = a_op A b a /\ a_iop A a b = a_iop A b a) /\
  (forall a b c, not_nan a -> not_nan b -> not_nan c ->
     a_op A a (a_op A b c) = a_op A (a_op A a b) c /\ a_iop A a (a_iop A b c) = a_iop A (a_iop A a b) c) /\
  (forall a, not_nan a -> a_op A a (a_neutral A) = a /\ a_iop A a (a_ineutral A) = a) /\
  (forall a, ~ better (a_neutral A) a /\ ~ better a (a_ineutral A)).

Definition less (a b : ext) : Prop := ext_lt a b = true.

(** [less] is the usual order: a strict weak (total) order on the values other than NaN. *)
Theorem C10_less_is_order :
  (forall a, ~ less a a) /\ (forall a b c, less a b -> less b c -> less a c) /\
  (forall a b, not_nan a -> not_nan b -> less a b \/ a = b \/ less b a).
Proof.
  unfold less. split; [|split].
  - ext_solve.
  - ext_solve.
  - intros a b Ha Hb. ext_solve. destruct (Z.eq_dec z z0) as [->|]; auto. lia.
Qed.
Print Assumptions C10_less_is_order.

Theorem C10_minimizer : selects MinimizerE less /\
  (forall a b, Minimizer_op3 ext ext_lt a b = a_op MinimizerE b a) /\
  (forall a b, Minimizer_iop3 ext ext_lt a b = a_iop MinimizerE b a).
Proof.
  unfold selects, less. split; [repeat match goal with |- _ /\ _ => split end|split; reflexivity].
  - intros; reflexivity.
  - intros; reflexivity.
  - cbn. unfold Minimizer_op2. intros a b Ha Hb. repeat split; ext_solve.
  - cbn. unfold Minimizer_iop2. intros a b Ha Hb. repeat split; ext_solve.
  - cbn. unfold Minimizer_op2, Minimizer_iop2. intros a b Ha Hb. repeat split; ext_solve.
  - cbn. unfold Minimizer_op2, Minimizer_iop2. intros a b c Ha Hb Hc. repeat split; ext_solve.
  - cbn. unfold Minimizer_op2, Minimizer_iop2, Minimizer_neutral, Minimizer_ineutral. intros a Ha. split; ext_solve.
  - cbn. unfold Minimizer_neutral, Minimizer_ineutral. intros a. split; ext_solve.
Qed.
Print Assumptions C10_minimizer.

Theorem C10_maximizer : selects MaximizerE (fun a b => less b a) /\
  (forall a b, Maximizer_op3 ext ext_lt a b = a_op MaximizerE b a) /\
  (forall a b, Maximizer_iop3 ext ext_lt a b = a_iop MaximizerE b a).
Proof.
  unfold selects, less. split; [repeat match goal with |- _ /\ _ => split end|split; reflexivity].
  - intros; reflexivity.
  - intros; reflexivity.
  - cbn. unfold Maximizer_op2. intros a b Ha Hb. repeat split; ext_solve.
  - cbn. unfold Maximizer_iop2. intros a b Ha Hb. repeat split; ext_solve.
  - cbn. unfold Maximizer_op2, Maximizer_iop2. intros a b Ha Hb. repeat split; ext_solve.
  - cbn. unfold Maximizer_op2, Maximizer_iop2. intros a b c Ha Hb Hc. repeat split; ext_solve.
  - cbn. unfold Maximizer_op2, Maximizer_iop2, Maximizer_neutral, Maximizer_ineutral. intros a Ha. split; ext_solve.
  - cbn. unfold Maximizer_neutral, Maximizer_ineutral. intros a. split; ext_solve.
Qed.
Print Assumptions C10_maximizer.

(** For integer value types the neutral element is 0 and wins against positive values
    (Minimizer) or negative ones (Maximizer). *)
Theorem C10_integer_neutral_refuted :
  (exists a, a_op MinimizerZ a (a_neutral MinimizerZ) <> a /\ a_bop MinimizerZ (a_neutral MinimizerZ) a = true) /\
  (exists a, a_op MaximizerZ a (a_neutral MaximizerZ) <> a /\ a_bop MaximizerZ (a_neutral MaximizerZ) a = true).
Proof. split; [exists 5%Z|exists (-5)%Z]; split; (discriminate || reflexivity). Qed.
Print Assumptions C10_integer_neutral_refuted.

(** Integrator: op is addition, but the in-place inverse operation has no effect. *)
Theorem C10_integrator :
  let op := Integrator_op2 ext ext_add in
  (forall a b, op a b = op b a) /\ (forall a b c, op a (op b c) = op (op a b) c) /\
  (forall a, op (Integrator_neutral ext (Fin 0)) a = a) /\
  (forall a b, Integrator_op3 ext ext_add a b = op b a) /\
  (forall a b, fin a -> Integrator_iop3 ext ext_sub (op a b) a = b).
Proof.
  cbn. unfold Integrator_op2, Integrator_op3, Integrator_iop3, Integrator_neutral, ext_sub.
  repeat split; ext_solve; try contradiction; try (destruct z; reflexivity).
Qed.
Print Assumptions C10_integrator.
Theorem C10_integrator_inplace_refuted : exists a b, fin a /\ fin b /\
  Integrator_iop2 ext a b <> Integrator_iop3 ext ext_sub b a /\
  Integrator_iop2 ext a (Integrator_op2 ext ext_add a b) <> b.
Proof. exists (Fin 1), (Fin 3). cbn. repeat split; discriminate. Qed.
Print Assumptions C10_integrator_inplace_refuted.

(** And, Or on bool. *)
Theorem C10_and_or :
  (forall a b, And_op2 a b = And_op2 b a /\ Or_op2 a b = Or_op2 b a) /\
  (forall a b c, And_op2 a (And_op2 b c) = And_op2 (And_op2 a b) c /\ Or_op2 a (Or_op2 b c) = Or_op2 (Or_op2 a b) c) /\
  (forall a, And_op2 a And_neutral = a /\ Or_op2 a Or_neutral = a) /\
  (forall a b, And_op3 a b = And_op2 b a /\ Or_op3 a b = Or_op2 b a) /\
  (forall a b, And_bop a b = And_op3 a b /\ And_ibop a b = negb (And_bop a b)) /\
  (forall a b, Or_bop a b = Or_op3 a b /\ Or_ibop a b = negb (Or_bop a b)).
Proof. repeat split; repeat match goal with b : bool |- _ => destruct b end; reflexivity. Qed.
Print Assumptions C10_and_or.

(** And on integers: 1 is not neutral for the bitwise operation, and two non-zero (true) values
    can have bop = false. Or on integers is fine. *)
Theorem C10_and_integer_refuted :
  (exists a, AndN_op2 a AndN_neutral <> a) /\ (exists a b, a <> 0%N /\ b <> 0%N /\ AndN_bop a b = false).
Proof. split; [exists 2%N; discriminate|exists 1%N, 2%N; repeat split; discriminate]. Qed.
Theorem C10_or_integer :
  (forall a, OrN_op2 a OrN_neutral = a) /\ (forall a b, OrN_bop a b = true <-> (a <> 0 \/ b <> 0)%N) /\
  (forall a b, OrN_op3 a b = OrN_op2 b a) /\ (forall a b, OrN_op2 a b = OrN_op2 b a).
Proof.
  unfold OrN_op2, OrN_neutral, OrN_bop, OrN_op3. split; [reflexivity|]. split; [|split; [reflexivity|intros; apply N.lor_comm]].
  intros a b. split; intros H.
  - destruct (N.eqb_spec (N.lor a b) 0) as [E|E]; [discriminate|].
    destruct (N.eq_dec a 0) as [->|]; auto.
  - apply negb_true_iff, N.eqb_neq. intros E. apply N.lor_eq_0_iff in E. intuition.
Qed.
Print Assumptions C10_or_integer.

(** Logsumexp: the neutral element combined with itself is NaN, because -inf - -inf is;
    for every implementation of log(1+exp(x)) that propagates NaN. *)
Theorem C10_logsumexp_neutral_refuted : forall log1pexp, log1pexp NaN = NaN ->
  Logsumexp_op2 ext ext_add ext_sub ext_lt log1pexp (Logsumexp_neutral ext NInf) (Logsumexp_neutral ext NInf) = NaN.
Proof. intros f H. cbn. rewrite H. reflexivity. Qed.
Print Assumptions C10_logsumexp_neutral_refuted.

Example C10_example : a_op MinimizerE (Fin 3) (Fin 5) = Fin 3 /\ a_bop MinimizerE (Fin 3) PInf = true /\ not_nan (Fin 3) /\ fin (Fin 3).
Proof. repeat split; discriminate. Qed.
