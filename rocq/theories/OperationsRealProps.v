(** C10, continued: operations whose statement needs real numbers (exp, log, pow). These theorems
    use the axioms of Coq's real numbers, listed by Print Assumptions. *)
From Coq Require Import Reals Lra.
From Verif Require Import Base Values OperationsModel.
Open Scope R_scope.

Definition Rltb (a b : R) : bool := if Rlt_dec a b then true else false.
Definition log1pexp (x : R) : R := ln (1 + exp x).

(** The in-place Logsumexp operation is log(exp(a) + exp(b)). *)
Theorem C10_logsumexp : forall a out,
  Logsumexp_op2 R Rplus Rminus Rltb log1pexp a out = ln (exp a + exp out).
Proof.
  assert (K : forall M m, M + log1pexp (m - M) = ln (exp M + exp m)).
  { intros M m. unfold log1pexp.
    replace (exp M + exp m) with (exp M * (1 + exp (m - M))).
    - rewrite ln_mult; [rewrite ln_exp; reflexivity|apply exp_pos|]. pose proof (exp_pos (m - M)). lra.
    - unfold Rminus. rewrite exp_plus, exp_Ropp. pose proof (exp_pos M). field. lra. }
  intros a out. unfold Logsumexp_op2, std_max, std_min, Rltb.
  destruct (Rlt_dec a out) as [H|H]; destruct (Rlt_dec out a) as [H2|H2]; try lra; rewrite K.
  - f_equal. lra.
  - reflexivity.
  - assert (a = out) by lra. subst. reflexivity.
Qed.
Print Assumptions C10_logsumexp.

(** Hence it is commutative and associative. *)
Theorem C10_logsumexp_laws :
  let op := Logsumexp_op2 R Rplus Rminus Rltb log1pexp in
  (forall a b, op a b = op b a) /\ (forall a b c, op a (op b c) = op (op a b) c).
Proof.
  cbv zeta. split; intros; rewrite !C10_logsumexp.
  - f_equal. lra.
  - rewrite !exp_ln; try (pose proof (exp_pos a); pose proof (exp_pos b); pose proof (exp_pos c); lra). f_equal. lra.
Qed.
Print Assumptions C10_logsumexp_laws.

(** The out-of-place form ignores its second argument and uses the old content of out. *)
Theorem C10_logsumexp_outofplace_refuted :
  (forall in1 in2 out, Logsumexp_op3 R Rplus Rminus Rltb log1pexp in1 in2 out = ln (exp in1 + exp out)) /\
  exists in1 in2 out, Logsumexp_op3 R Rplus Rminus Rltb log1pexp in1 in2 out <> ln (exp in1 + exp in2).
Proof.
  assert (K : forall in1 in2 out, Logsumexp_op3 R Rplus Rminus Rltb log1pexp in1 in2 out = ln (exp in1 + exp out)).
  { intros. apply C10_logsumexp. }
  split; [exact K|]. exists 0, 0, 1. rewrite K. intros H.
  apply ln_inv in H; [|pose proof (exp_pos 0); pose proof (exp_pos 1); lra|pose proof (exp_pos 0); lra].
  assert (exp 0 < exp 1) by (apply exp_increasing; lra). lra.
Qed.
Print Assumptions C10_logsumexp_outofplace_refuted.

(** Weighted operations over the Adder. *)
Theorem C10_weighted_adder :
  let op := Adder_op2 R Rplus in let iop := Adder_iop2 R Rminus in let hop := Adder_hop2 R Rmult in
  (forall a b w, weightedMean R op iop hop a b w = a * w + b * (1 - w)) /\
  (forall a w out, wop R op hop a w out = out + a * w) /\
  (forall a w out, w <> 0 -> iwop R 1 Rdiv op hop a w out = out + a / w) /\
  (forall a w out, wiop R iop hop a w out = out - a * w) /\
  (forall a w out, w <> 0 -> iwiop R 1 Rdiv iop hop a w out = out - a / w).
Proof.
  cbv zeta. unfold weightedMean, wop, iwop, wiop, iwiop, Adder_op2, Adder_iop2, Adder_hop2.
  repeat split; intros; try ring; field; auto.
Qed.
Print Assumptions C10_weighted_adder.

(** Weighted operations over the Multiplier, for positive values. *)
Theorem C10_weighted_multiplier :
  let op := Multiplier_op2 R Rmult in let iop := Multiplier_iop2 R Rdiv in let hop := Multiplier_hop2 R Rpower in
  (forall a b w, 0 < a -> 0 < b -> weightedMean R op iop hop a b w = Rpower a w * Rpower b (1 - w)) /\
  (forall a w out, wop R op hop a w out = out * Rpower a w) /\
  (forall a w out, w <> 0 -> iwop R 1 Rdiv op hop a w out = out * Rpower a (1 / w)) /\
  (forall a w out, wiop R iop hop a w out = out / Rpower a w) /\
  (forall a w out, w <> 0 -> iwiop R 1 Rdiv iop hop a w out = out / Rpower a (1 / w)).
Proof.
  cbv zeta. unfold weightedMean, wop, iwop, wiop, iwiop, Multiplier_op2, Multiplier_iop2, Multiplier_hop2.
  repeat split; intros; try reflexivity.
  unfold Rpower, Rdiv. rewrite ln_mult, ln_Rinv; auto; [|apply Rinv_0_lt_compat; auto].
  rewrite <- (exp_ln b) at 2 by auto. rewrite <- !exp_plus. f_equal. ring.
Qed.
Print Assumptions C10_weighted_multiplier.

Example C10_weighted_example : 0 < 2 /\ (3 : R) <> 0.
Proof. split; lra. Qed.
