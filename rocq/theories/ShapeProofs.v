(** Mixed radix facts. *)
From Verif Require Import Base ShapeSpec.

Lemma size_of_pos : forall shape, positive shape -> 0 < size_of shape.
Proof. intros shape H. induction H; cbn; [lia|]. fold (size_of l). nia. Qed.

Lemma coord_of_length : forall shape k, length (coord_of shape k) = length shape.
Proof. induction shape; intros; cbn; auto. Qed.

Lemma coord_of_in_shape : forall shape k, positive shape -> in_shape shape (coord_of shape k).
Proof.
  induction shape as [|s sh IH]; intros k H; cbn; constructor.
  - apply Nat.mod_upper_bound. inversion H; lia.
  - apply IH. inversion H; auto.
Qed.

Lemma in_shape_length : forall shape c, in_shape shape c -> length c = length shape.
Proof. intros shape c H. induction H; cbn; auto. Qed.

Lemma index_of_lt : forall shape c, in_shape shape c -> index_of shape c < size_of shape.
Proof.
  intros shape c H. induction H as [|x s c sh Hx H IH]; cbn; [lia|]. fold (size_of sh). nia.
Qed.

Lemma coord_of_index : forall shape c, in_shape shape c -> coord_of shape (index_of shape c) = c.
Proof.
  intros shape c H. induction H as [|x s c sh Hx H IH]; cbn; auto. f_equal.
  - rewrite (Nat.mul_comm s), Nat.mod_add by lia. apply Nat.mod_small; auto.
  - rewrite (Nat.mul_comm s), Nat.div_add by lia. rewrite (Nat.div_small x s); auto.
Qed.

Lemma index_of_coord : forall shape k, positive shape -> k < size_of shape -> index_of shape (coord_of shape k) = k.
Proof.
  induction shape as [|s sh IH]; intros k H Hk; cbn in *; [lia|]. fold (size_of sh) in Hk.
  inversion H; subst. rewrite IH; auto.
  - rewrite (Nat.div_mod k s) at 3 by lia. lia.
  - apply Nat.div_lt_upper_bound; lia.
Qed.

Lemma coord_of_mod : forall shape k, positive shape -> coord_of shape (k mod size_of shape) = coord_of shape k.
Proof.
  induction shape as [|s sh IH]; intros k H; cbn; auto. fold (size_of sh). inversion H; subst.
  pose proof (size_of_pos sh H3).
  rewrite Nat.mod_mul_r by lia. f_equal.
  - rewrite (Nat.mul_comm s), Nat.mod_add by lia. apply Nat.mod_mod; lia.
  - rewrite (Nat.mul_comm s), Nat.div_add by lia. rewrite (Nat.div_small (k mod s)) by (apply Nat.mod_upper_bound; lia).
    cbn. apply IH; auto.
Qed.

Lemma coord_of_0 : forall shape, positive shape -> coord_of shape 0 = repeat 0 (length shape).
Proof.
  intros shape H. induction H; cbn; auto. rewrite Nat.mod_0_l, Nat.div_0_l by lia. congruence.
Qed.

Lemma positive_in_shape_0 : forall shape, positive shape -> in_shape shape (repeat 0 (length shape)).
Proof. intros shape H. induction H; cbn; constructor; auto. Qed.

Lemma div_S_wrap : forall k s, 0 < s -> S (k mod s) = s -> S k / s = S (k / s) /\ S k mod s = 0.
Proof.
  intros k s Hs H. assert (E : S k = S (k / s) * s) by (pose proof (Nat.div_mod k s); nia).
  rewrite E. split; [apply Nat.div_mul|apply Nat.mod_mul]; lia.
Qed.
Lemma div_S_nowrap : forall k s, 0 < s -> S (k mod s) <> s -> S k / s = k / s /\ S k mod s = S (k mod s).
Proof.
  intros k s Hs H. pose proof (Nat.mod_upper_bound k s).
  assert (E : S k = S (k mod s) + k / s * s) by (pose proof (Nat.div_mod k s); lia).
  rewrite E at 1 2. rewrite Nat.div_add, Nat.mod_add by lia.
  rewrite Nat.div_small, Nat.mod_small by lia. lia.
Qed.

(** Pure increment with wrap-around. *)
Fixpoint incr (shape c : list nat) : list nat :=
  match shape, c with
  | s :: sh, x :: c' => if Nat.eqb (S x) s then 0 :: incr sh c' else S x :: c'
  | _, _ => c
  end.
Lemma incr_coord : forall shape k, positive shape -> incr shape (coord_of shape k) = coord_of shape (S k).
Proof.
  induction shape as [|s sh IH]; intros k H; cbn [coord_of incr]; auto. inversion H; subst.
  destruct (Nat.eqb_spec (S (k mod s)) s) as [E|E].
  - destruct (div_S_wrap k s) as [-> ->]; auto. f_equal. apply IH; auto.
  - destruct (div_S_nowrap k s) as [-> ->]; auto.
Qed.
Lemma incr_length : forall shape c, length (incr shape c) = length c.
Proof.
  induction shape as [|s sh IH]; intros [|x c]; cbn; auto. destruct s; cbn; auto.
  destruct (x =? s); cbn; auto.
Qed.
