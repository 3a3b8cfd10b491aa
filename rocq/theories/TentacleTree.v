(** Proofs for tentacle elimination: the variables and factors that have been taken off form trees with at most one root. *)
From Coq Require Import Sorted Relations.
From Verif Require Import Base Values GmView GmViewSpec GmViewProofs FactorGraphSpec ManipulatorModel TentacleModel TentaclePeel DecompForest.
#[local] Arguments nth_error : simpl never.

(** ** Lists and relations *)
Lemma cycle_two : forall A (R : A -> A -> Prop) c x, cycle R c -> In x c -> exists y z, y <> z /\ In y c /\ In z c /\ R x y /\ R z x.
Proof.
  intros A R c x C I. apply in_split in I. destruct I as [l1 [l2 ->]]. pose proof (cycle_rotate A R l1 (x :: l2) C) as C'. cbn [app] in C'.
  assert (SUB : forall y, In y (x :: l2 ++ l1) -> In y (l1 ++ x :: l2)). { intros y H. apply in_app_iff. cbn [In] in *. rewrite in_app_iff in H. tauto. }
  destruct C' as [ND [L [P CC]]]. destruct (l2 ++ l1) as [|y [|z t]]; cbn in L; try lia. exists y, (last (y :: z :: t) x).
  assert (IL : In (last (y :: z :: t) x) (z :: t)). { clear. cbn [last]. revert z. induction t as [|b t IH]; intros z; [left; auto|]. right. apply IH. }
  split. { intros E. inversion ND; subst. inversion H2; subst. apply H3. rewrite E. auto. }
  split; [apply SUB; right; left; auto|]. split; [apply SUB; right; right; auto|]. split; [apply P|]. apply CC. auto.
Qed.
Lemma earliest : forall (P : nat -> Prop) (pop : list nat), (forall x, P x \/ ~ P x) -> (exists w, In w pop /\ P w) -> exists l1 w l2, pop = l1 ++ w :: l2 /\ P w /\ forall x, In x l2 -> ~ P x.
Proof.
  intros P pop D. induction pop as [|a pop IH]; intros (w & I & HP); [destruct I|].
  assert (X : (exists w, In w pop /\ P w) \/ forall x, In x pop -> ~ P x).
  { clear - D. induction pop as [|a pop [(w & I & HP)|N]]; [right; intros x []|left; exists w; cbn; auto|]. destruct (D a); [left; exists a; cbn; auto|]. right. intros x [<-|I]; auto. }
  destruct X as [X|X].
  - destruct (IH X) as (l1 & w' & l2 & -> & H). exists (a :: l1), w', l2. auto.
  - destruct I as [->|I]; [|exfalso; apply (X w); auto]. exists [], w, pop. auto.
Qed.
Lemma nodup_split : forall (w : nat) l1 l2 m1 m2, NoDup (l1 ++ w :: l2) -> l1 ++ w :: l2 = m1 ++ w :: m2 -> l2 = m2.
Proof.
  intros w l1. induction l1 as [|a l1 IH]; intros l2 [|b m1] m2 ND E; cbn in *.
  - congruence.
  - injection E as <- ->. inversion ND; subst. exfalso. apply H1. apply in_elt.
  - injection E as -> <-. inversion ND; subst. exfalso. apply H1. apply in_elt.
  - injection E as <- E. inversion ND; subst. eapply IH; eauto.
Qed.

(** Two elements that are joined by steps of a function have a common successor. *)
Section Joinable.
Variable R : nat -> nat -> Prop.
Hypothesis DET : forall a b c, R a b -> R a c -> b = c.
Notation star := (clos_refl_trans_1n nat R).
Lemma star_trans : forall a b c, star a b -> star b c -> star a c.
Proof. intros a b c H. induction H; auto. intros. econstructor; eauto. Qed.
Lemma star_linear : forall a b c, star a b -> star a c -> star b c \/ star c b.
Proof.
  intros a b c H. revert c. induction H as [|a a' b H1 H2 IH]; intros c HC; auto. inversion HC; subst; [right; econstructor; eauto|]. rewrite (DET _ _ _ H1 H) in *. auto.
Qed.
Lemma join_sym_trans : forall (Q : nat -> nat -> Prop), (forall a b, Q a b -> exists c, star a c /\ star b c) -> forall a b, clos_refl_sym_trans nat Q a b -> exists c, star a c /\ star b c.
Proof.
  intros Q HQ a b H. induction H as [a b H|a|a b H (c & A & B)|a b c H1 (d & A & B) H2 (e & C & D)]; eauto.
  - exists a. split; constructor.
  - destruct (star_linear _ _ _ B C) as [X|X]; [exists e|exists d]; split; auto; eapply star_trans; eauto.
Qed.
Lemma join_final : forall a b, (exists c, star a c /\ star b c) -> (forall c, ~ R a c) -> (forall c, ~ R b c) -> a = b.
Proof. intros a b (c & A & B) NA NB. inversion A; subst; [|exfalso; eapply NA; eauto]. inversion B; subst; auto. exfalso; eapply NB; eauto. Qed.
End Joinable.

Section S.
Variable T : Type.
Variable g : gmv T.
Hypothesis W : wf_gmv g.
Variable fix_ : list bool.
Notation n := (length (v_labels g)).
Notation nf := (length (v_factors g)).
Hypothesis LF : length fix_ = n.
Notation fr := (fr fix_).
Notation vars := (vars T g).
Notation fvars := (fvars T g fix_).
Notation left_ := (left_ T g fix_).
Notation deg := (deg T g fix_).
Notation open_ := (open_ T g fix_).
Notation elim_ok := (elim_ok T g fix_).
Variable pop : list nat.
Variable p : peel.
Hypothesis PI : pinv T g fix_ pop p.
Hypothesis PL : p_leafs p = [].

Definition is_in (v : nat) : Prop := nth v (p_in p) false = true.
Definition is_tf (k : nat) : Prop := nth k (p_tf p) false = true.
Definition is_root (v : nat) : Prop := is_in v /\ 0 < deg pop v.

Lemma pop_nodup : NoDup pop.
Proof. pose proof (pi_nd _ _ _ _ _ PI) as H. rewrite PL, app_nil_r in H. auto. Qed.
Lemma pop_iff : forall v, fr v = true -> (In v pop <-> deg pop v <= 1).
Proof. intros v F. pose proof (pi_leaf _ _ _ _ _ PI v F) as H. rewrite PL, app_nil_r in H. auto. Qed.
Lemma in_iff : forall v, is_in v <-> (In v pop \/ exists k, In v (fvars k) /\ cut T g fix_ pop k).
Proof. intros v. pose proof (pi_in _ _ _ _ _ PI v) as H. rewrite PL, app_nil_r in H. auto. Qed.
Lemma tf_iff : forall k, is_tf k <-> (left_ pop k <= 1 /\ exists v, In v pop /\ In v (fvars k)).
Proof. apply (pi_tf _ _ _ _ _ PI). Qed.
Lemma in_fr : forall v, is_in v -> fr v = true.
Proof. intros v H. apply in_iff in H. destruct H as [H|(k & H & _)]; [apply (pi_fr _ _ _ _ _ PI); rewrite PL, app_nil_r; auto|]. apply fvars_In in H. tauto. Qed.
Lemma tf_in : forall k v, is_tf k -> In v (fvars k) -> is_in v.
Proof.
  intros k v K I. apply tf_iff in K. destruct K as (L & w & PW & IW). apply in_iff. destruct (Nat.eq_dec v w) as [->|N]; auto. right. exists k. split; auto. split; auto.
  pose proof (fvars_nodup T g W fix_ LF k) as ND. destruct (fvars k) as [|a [|b r]]; cbn; try lia; [destruct I|]. destruct I as [->|[]], IW as [->|[]]. congruence.
Qed.
Lemma tf_some : forall k, is_tf k -> exists v, In v (fvars k).
Proof. intros k K. apply tf_iff in K. destruct K as (_ & v & _ & I). eauto. Qed.
Lemma not_root_tf : forall v k, is_in v -> ~ is_root v -> In v (fvars k) -> is_tf k.
Proof.
  intros v k I NR IV. assert (D : deg pop v = 0) by (unfold is_root in NR; destruct (Nat.eq_dec (deg pop v) 0); auto; exfalso; apply NR; split; auto; lia).
  apply tf_iff. split.
  - destruct (Nat.le_gt_cases (left_ pop k) 1) as [|G]; auto. exfalso. assert (0 < deg pop v); [|lia]. apply count_pos. exists k. split; [apply in_seq; pose proof (fvars_lt T g W fix_ k v IV); lia|].
    apply andb_true_iff. split; [apply mem_In; auto|apply Nat.leb_le; lia].
  - exists v. split; auto. apply pop_iff; [apply in_fr; auto|lia].
Qed.

(** At the time a variable was taken off, one factor at most joined it with later ones. *)
Lemma elim_at : forall l1 w l2 k1 k2, pop = l1 ++ w :: l2 -> open_ l2 w k1 -> open_ l2 w k2 -> k1 = k2.
Proof.
  assert (G : forall q l1 w l2 k1 k2, elim_ok q -> q = l1 ++ w :: l2 -> open_ l2 w k1 -> open_ l2 w k2 -> k1 = k2).
  { induction q as [|a q IH]; intros [|b l1] w l2 k1 k2 E Q O1 O2; try discriminate; cbn in Q.
    - injection Q as -> ->. destruct E as [_ E]. auto.
    - injection Q as -> ->. destruct E as [E _]. eapply IH; eauto. }
  intros l1 w l2 k1 k2. apply G. apply (pi_el _ _ _ _ _ PI).
Qed.

Definition tedge (a b : node) : Prop := match a, b with NV v, NF k | NF k, NV v => is_tf k /\ In v (fvars k) | _, _ => False end.
Lemma no_cycle : forall c, ~ cycle tedge c.
Proof.
  intros c C.
  assert (SOME : exists k, In (NF k) c).
  { destruct c as [|x c]; [destruct C as (_ & L & _); cbn in L; lia|]. destruct (cycle_two _ _ _ x C (or_introl eq_refl)) as (y & z & _ & Iy & _ & E & _). destruct x as [v|k]; [|exists k; left; auto]. destruct y as [u|k]; [destruct E|]. eauto. }
  assert (NB : forall k, In (NF k) c -> is_tf k /\ exists a b, a <> b /\ In (NV a) c /\ In (NV b) c /\ In a (fvars k) /\ In b (fvars k)).
  { intros k I. destruct (cycle_two _ _ _ _ C I) as (y & z & N & Iy & Iz & E1 & E2). destruct y as [a|], z as [b|]; try (destruct E1; fail); try (destruct E2; fail). destruct E1 as [E1 E1'], E2 as [E2 E2'].
    split; auto. exists a, b. split; [congruence|auto]. }
  assert (POP : exists w, In w pop /\ In (NV w) c).
  { destruct SOME as (k & I). destruct (NB k I) as (K & a & b & N & Ia & Ib & Fa & Fb). apply tf_iff in K. destruct K as [L _].
    destruct (in_dec Nat.eq_dec a pop) as [Pa|Pa]; [eauto|]. destruct (in_dec Nat.eq_dec b pop) as [Pb|Pb]; [eauto|]. exfalso. assert (2 <= left_ pop k); [|lia].
    apply count_ge2; [apply fvars_nodup; auto|]. exists a, b. rewrite !negb_true_iff, !mem_false. auto. }
  assert (DEC : forall x, In (NV x) c \/ ~ In (NV x) c). { intros x. destruct (in_dec (fun a b : node => ltac:(decide equality; apply Nat.eq_dec)) (NV x) c); auto. }
  destruct (earliest (fun w => In (NV w) c) pop DEC POP) as (l1 & w & l2 & E & Iw & NO).
  destruct (cycle_two _ _ _ _ C Iw) as (y & z & N & Iy & Iz & E1 & E2). destruct y as [|k1], z as [|k2]; try (destruct E1; fail); try (destruct E2; fail). apply N. f_equal.
  assert (OP : forall k, In (NF k) c -> In w (fvars k) -> open_ l2 w k).
  { intros k I F. split; auto. destruct (NB k I) as (_ & a & b & Nab & Ia & Ib & Fa & Fb). destruct (Nat.eq_dec a w) as [->|Na]; [exists b|exists a]; (split; [auto|split; [auto|intros X; eapply NO; eauto]]). }
  apply (elim_at l1 w l2); auto; apply OP; auto; [apply E1|apply E2].
Qed.

(** ** At most one root *)
(** [u] is the variable of [k] that was taken off last, or not at all, and [w] is another one. *)
Definition later (w u k : nat) : Prop := In w (fvars k) /\ In u (fvars k) /\ w <> u /\ exists l1 l2, pop = l1 ++ w :: l2 /\ ~ In u l2.
Lemma later_open : forall w u k, later w u k -> exists l1 l2, pop = l1 ++ w :: l2 /\ open_ l2 w k.
Proof. intros w u k (A & B & N & l1 & l2 & E & NI). exists l1, l2. split; auto. split; auto. exists u. auto. Qed.
Lemma last_ex : forall k, is_tf k -> exists u, In u (fvars k) /\ forall w, In w (fvars k) -> w <> u -> later w u k.
Proof.
  intros k K. apply tf_iff in K. destruct K as (L & v & PV & IV). destruct (Nat.eq_dec (left_ pop k) 0) as [Z|Z].
  - assert (ALL : forall w, In w (fvars k) -> In w pop).
    { intros w I. destruct (in_dec Nat.eq_dec w pop) as [|N]; auto. exfalso. assert (0 < left_ pop k); [|lia]. apply count_pos. exists w. rewrite negb_true_iff, mem_false. auto. }
    destruct (earliest (fun w => In w (fvars k)) (rev pop)) as (l1 & u & l2 & E & Iu & NO).
    { intros x. destruct (in_dec Nat.eq_dec x (fvars k)); auto. }
    { exists v. split; auto. apply in_rev. rewrite rev_involutive. auto. }
    assert (E' : pop = rev l2 ++ u :: rev l1). { rewrite <- (rev_involutive pop), E, rev_app_distr. cbn. rewrite <- app_assoc. auto. }
    exists u. split; auto. intros w Iw N. split; auto. split; auto. split; auto.
    assert (IR : In w (rev l1)). { pose proof (ALL w Iw) as X. rewrite E' in X. apply in_app_iff in X. destruct X as [X|[X|X]]; auto; [|congruence]. exfalso. apply (NO w); auto. apply in_rev. auto. }
    apply in_split in IR. destruct IR as (m1 & m2 & M). exists (rev l2 ++ u :: m1), m2. split. { rewrite E', M, <- app_assoc. auto. }
    pose proof pop_nodup as ND. rewrite E', M in ND. apply nodup_mid in ND. destruct ND as [_ ND]. rewrite in_app_iff in ND. cbn in ND. tauto.
  - assert (P : 0 < left_ pop k) by lia. apply count_pos in P. destruct P as (u & Iu & NU). apply negb_true_iff, mem_false in NU. exists u. split; auto. intros w Iw N. split; auto. split; auto. split; auto.
    assert (PW : In w pop). { destruct (in_dec Nat.eq_dec w pop) as [|NW]; auto. exfalso. assert (2 <= left_ pop k); [|lia]. apply count_ge2; [apply fvars_nodup; auto|]. exists w, u. rewrite !negb_true_iff, !mem_false. auto. }
    apply in_split in PW. destruct PW as (l1 & l2 & E). exists l1, l2. split; auto. intros X. apply NU. rewrite E. apply in_or_app. cbn. auto.
Qed.
Definition next (w u : nat) : Prop := exists k, is_tf k /\ In u (fvars k) /\ (forall x, In x (fvars k) -> x <> u -> later x u k) /\ later w u k.
Lemma next_det : forall a b c, next a b -> next a c -> b = c.
Proof.
  intros a b c (k1 & K1 & I1 & A1 & L1) (k2 & K2 & I2 & A2 & L2). destruct (later_open _ _ _ L1) as (l1 & l2 & E1 & O1). destruct (later_open _ _ _ L2) as (m1 & m2 & E2 & O2).
  assert (l2 = m2). { apply (nodup_split a l1 l2 m1 m2); [rewrite <- E1; apply pop_nodup|congruence]. } subst m2.
  assert (k1 = k2) by (apply (elim_at l1 a l2); auto). subst k2. destruct (Nat.eq_dec b c) as [|N]; auto. exfalso.
  destruct (A1 c I2 ltac:(auto)) as (_ & _ & _ & p1 & p2 & Ep & Np). destruct (A2 b I1 N) as (_ & _ & _ & q1 & q2 & Eq & Nq).
  (* b and c are each taken off before the other *)
  assert (IB : In b pop) by (rewrite Eq; apply in_elt). rewrite Ep in IB. apply in_app_iff in IB. destruct IB as [IB|[IB|IB]]; [|congruence|contradiction].
  apply in_split in IB. destruct IB as (r1 & r2 & ->). rewrite <- app_assoc in Ep. cbn [app] in Ep. assert (X : r2 ++ c :: p2 = q2). { apply (nodup_split b r1 _ q1 _); [rewrite <- Ep; apply pop_nodup|congruence]. }
  apply Nq. rewrite <- X. apply in_elt.
Qed.
Lemma root_last : forall v u, is_root v -> ~ next v u.
Proof.
  intros v u [I D] (k & K & Iu & A & L). destruct (later_open _ _ _ L) as (l1 & l2 & E & O). assert (IP : In v pop) by (rewrite E; apply in_elt).
  apply count_pos in D. destruct D as (k0 & _ & D). apply andb_true_iff in D. destruct D as [M D]. apply mem_In in M. apply Nat.leb_le in D.
  assert (O0 : open_ l2 v k0).
  { split; auto. pose proof D as D'. apply count_ge2 in D'; [|apply fvars_nodup; auto]. destruct D' as (a & b & N & Ia & Ib & Pa & Pb). rewrite negb_true_iff, mem_false in Pa, Pb.
    assert (Na : a <> v) by congruence. exists a. split; auto. split; auto. intros X. apply Pa. rewrite E. apply in_or_app. cbn. auto. }
  assert (k = k0) by (apply (elim_at l1 v l2); auto). subst k0. apply tf_iff in K. lia.
Qed.
Definition tshare (a b : nat) : Prop := exists k, is_tf k /\ In a (fvars k) /\ In b (fvars k).
Theorem one_root : forall a b, clos_refl_sym_trans nat tshare a b -> is_root a -> is_root b -> a = b.
Proof.
  intros a b H RA RB. apply (join_final next).
  - apply (join_sym_trans next next_det tshare); auto. intros x y (k & K & Ix & Iy). destruct (last_ex k K) as (u & Iu & A). exists u.
    assert (G : forall w, In w (fvars k) -> clos_refl_trans_1n nat next w u). { intros w Iw. destruct (Nat.eq_dec w u) as [->|N]; [constructor|]. econstructor; [|constructor]. exists k. auto 10. }
    auto.
  - intros c. apply root_last; auto.
  - intros c. apply root_last; auto.
Qed.
End S.
