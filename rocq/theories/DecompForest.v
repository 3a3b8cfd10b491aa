(** Graph lemmas for decompositions into trees: acyclicity of a list of factors. *)
From Coq Require Import Sorted Permutation Relations FinFun.
From Verif Require Import Base FactorGraphModel FactorGraphSpec FactorGraphAcyclic DecompModel DecompSpec.
#[local] Arguments nth_error : simpl never.

(** The factor graph with factors over the variable lists [L]. *)
Definition graph (L : list (list nat)) : fgraph := mkFgraph L [].
Notation E L := (FactorGraphSpec.edge (graph L)).
Definition acyc (L : list (list nat)) : Prop := acyclic (graph L).
Definition linked (L : list (list nat)) : nat -> nat -> Prop := joined (graph L).

Section P.
Variable A : Type.
Variable R : A -> A -> Prop.
Lemma path_snoc : forall l a x d, path R (x :: l) -> R (last (x :: l) d) a -> path R ((x :: l) ++ [a]).
Proof.
  induction l as [|y l IH]; intros a x d P H. { cbn in *. auto. } destruct P as [P1 P2]. split; auto. apply (IH a y d); auto.
Qed.
Lemma cycle_turn : forall a t, cycle R (a :: t) -> cycle R (t ++ [a]).
Proof.
  intros a [|b t] [ND [L [P C]]]; cbn in L; [lia|]. split; [|split; [|split]].
  - apply (Permutation_NoDup (l := a :: b :: t)); auto. apply Permutation_cons_append.
  - rewrite app_length. cbn. lia.
  - destruct P as [P1 P2]. apply (path_snoc t a b a); [auto|]. apply (C a (b :: t) eq_refl).
  - intros x l H. cbn [app] in H. injection H as <- <-. rewrite last_last. apply P.
Qed.
Lemma cycle_rotate : forall l1 l2, cycle R (l1 ++ l2) -> cycle R (l2 ++ l1).
Proof.
  induction l1 as [|a l1 IH]; intros l2 H. { rewrite app_nil_r. auto. } cbn [app] in H. apply cycle_turn in H. rewrite <- app_assoc in H. apply IH in H. rewrite <- app_assoc in H. auto.
Qed.
Lemma path_conn : forall l x, path R (x :: l) -> clos_refl_sym_trans A R x (last l x).
Proof.
  induction l as [|y l IH]; intros x P. { apply rst_refl. } destruct P as [P1 P2]. rewrite last_cons. eapply rst_trans; [apply rst_step; eauto|]. auto.
Qed.
Lemma cycle_edge : forall c x, cycle R c -> In x c -> exists y, In y c /\ R x y.
Proof.
  intros c x C I. apply in_split in I. destruct I as [l1 [l2 ->]]. pose proof (cycle_rotate l1 (x :: l2) C) as C'. cbn [app] in C'. destruct C' as [_ [L [P _]]]. destruct (l2 ++ l1) as [|y t] eqn:Q; cbn in L; [lia|]. exists y. split; [|apply P].
  assert (I : In y (l2 ++ l1)) by (rewrite Q; left; auto). apply in_app_iff in I. apply in_or_app. cbn. tauto.
Qed.
End P.

Lemma path_map_in : forall A B (R : A -> A -> Prop) (S : B -> B -> Prop) (phi : A -> B) l, (forall x y, In x l -> In y l -> R x y -> S (phi x) (phi y)) -> path R l -> path S (map phi l).
Proof.
  intros A B R S phi. induction l as [|x [|y l] IH]; intros H P; auto. destruct P as [P1 P2]. split. { apply H; cbn; auto. } apply IH; auto. intros. apply H; cbn in *; tauto.
Qed.
Lemma cycle_map : forall A B (R : A -> A -> Prop) (S : B -> B -> Prop) (phi : A -> B) c, cycle R c ->
  (forall x y, In x c -> In y c -> phi x = phi y -> x = y) -> (forall x y, In x c -> In y c -> R x y -> S (phi x) (phi y)) -> cycle S (map phi c).
Proof.
  intros A B R S phi c [ND [L [P C]]] Inj H. split; [|split; [|split]].
  - clear - ND Inj. induction c as [|x c IH]; cbn [map]; constructor; inversion ND; subst.
    + intros I. apply in_map_iff in I. destruct I as [y [Y1 Y2]]. assert (x = y) by (apply Inj; cbn; auto). subst. auto.
    + apply IH; auto. intros. apply Inj; cbn; auto.
  - rewrite map_length. auto.
  - eapply path_map_in; eauto.
  - intros b t Q. destruct c as [|a c]; [discriminate|]. cbn [map] in Q. injection Q as <- <-.
    assert (LM : forall l (d : A), last (map phi l) (phi d) = phi (last l d)). { induction l as [|x [|y l] IH]; intros; auto. apply IH. }
    rewrite LM. apply H; [|left; auto|apply C; auto]. destruct c as [|a' c]. { cbn. auto. } rewrite last_cons. right. clear. revert a'. induction c as [|z c IH]; intros a'; [left; auto|]. rewrite last_cons. right. apply IH.
Qed.

Lemma E_app : forall L idx x y, E (L ++ [idx]) x y -> x <> NF (length L) -> y <> NF (length L) -> E L x y.
Proof.
  assert (Q : forall L idx f v, incident (graph (L ++ [idx])) f v -> f <> length L -> incident (graph L) f v).
  { intros L idx f v [vs [H I]] N. exists vs. split; auto. cbn in *. rewrite nth_error_app1 in H; auto.
    assert (f < length (L ++ [idx])) by (apply nth_error_Some; congruence). rewrite app_length in H0. cbn in H0. lia. }
  intros L idx [v|f] [w|g] H N1 N2; cbn in *; auto; eapply Q; eauto; congruence.
Qed.
Lemma E_last : forall L idx v, E (L ++ [idx]) (NF (length L)) (NV v) -> In v idx.
Proof. intros L idx v [vs [H I]]. cbn in H. rewrite nth_error_app2, Nat.sub_diag in H by lia. cbv in H. injection H as <-. auto. Qed.

Lemma path_linked : forall L n l a b, length l <= n -> path (E L) (NV a :: l) -> last l (NV a) = NV b -> linked L a b.
Proof.
  intros L. induction n as [|n IH]; intros l a b Hl P Q.
  - destruct l; cbn in Hl; [|lia]. cbn in Q. injection Q as <-. apply rst_refl.
  - destruct l as [|[v|f] l]. { cbn in Q. injection Q as <-. apply rst_refl. } { destruct P as [[] _]. }
    destruct l as [|[v|g] l]. { cbn in Q. discriminate. } 2:{ destruct P as [_ [[] _]]. }
    destruct P as [P1 [P2 P3]]. rewrite !last_cons in Q. eapply rst_trans; [apply rst_step; exists f; split; eauto|]. apply (IH l v b); auto. cbn in Hl. lia.
Qed.

(** A factor that connects variables of different components closes no cycle. *)
Lemma acyc_app : forall L idx, acyc L -> (forall a b, In a idx -> In b idx -> linked L a b -> a = b) -> acyc (L ++ [idx]).
Proof.
  intros L idx H S c C. destruct (in_dec node_dec (NF (length L)) c) as [I|NI].
  - apply in_split in I. destruct I as [l1 [l2 ->]]. pose proof (cycle_rotate _ _ l1 (NF (length L) :: l2) C) as C'. cbn [app] in C'. clear C. destruct C' as [ND [LN [P CC]]].
    destruct (l2 ++ l1) as [|y t] eqn:Q; cbn in LN; [lia|]. destruct P as [P1 P2]. pose proof (CC _ _ eq_refl) as P3. rewrite last_cons in P3.
    destruct y as [a|g]; [|destruct P1]. inversion ND as [|? ? N1 N2]; subst.
    assert (PL : path (E L) (NV a :: t)).
    { apply path_map_in with (phi := fun x => x) (R := E (L ++ [idx])) (S := E L) in P2. { rewrite map_id in P2. auto. } intros x y Ix Iy Exy. apply (E_app L idx); auto; intros ->; auto. }
    destruct (last t (NV a)) as [b|g] eqn:EL; [|destruct P3].
    assert (Lk : linked L a b) by (eapply path_linked; eauto). assert (a = b). { apply S; auto; apply (E_last L); auto. }
    subst b. destruct t as [|z t]; [cbn in LN; lia|]. inversion N2 as [|? ? N3 N4]. apply N3. rewrite <- EL. rewrite last_cons. clear. revert z. induction t as [|w t IH]; intros z; [left; auto|]. rewrite last_cons. right. apply IH.
  - apply (H c). replace c with (map (fun x : node => x) c) by apply map_id. eapply cycle_map; eauto. intros x y Ix Iy Exy. apply (E_app L idx); auto; intros ->; auto.
Qed.

Lemma linked_app : forall L idx u v, linked (L ++ [idx]) u v -> linked L u v \/ exists a b, In a idx /\ In b idx /\ linked L u a /\ linked L v b.
Proof.
  intros L idx u v H. induction H as [u v [f [[x [X1 X2]] [y [Y1 Y2]]]]|u|u v H IH|u v w H1 IH1 H2 IH2].
  - cbn in X1, Y1. rewrite X1 in Y1. injection Y1 as <-. destruct (Nat.lt_ge_cases f (length L)).
    + left. rewrite nth_error_app1 in X1 by auto. apply rst_step. exists f. split; exists x; auto.
    + right. assert (f = length L). { assert (f < length (L ++ [idx])) by (apply nth_error_Some; congruence). rewrite app_length in H0. cbn in H0. lia. } subst f. rewrite nth_error_app2, Nat.sub_diag in X1 by lia. cbv in X1. injection X1 as <-. exists u, v. repeat split; auto; apply rst_refl.
  - left. apply rst_refl.
  - destruct IH as [IH|[a [b [I1 [I2 [I3 I4]]]]]]. { left. apply rst_sym. auto. } right. exists b, a. auto.
  - destruct IH1 as [L1|[a [b [I1 [I2 [I3 I4]]]]]], IH2 as [L2|[c [d [J1 [J2 [J3 J4]]]]]].
    + left. eapply rst_trans; eauto.
    + right. exists c, d. repeat split; auto. eapply rst_trans; eauto.
    + right. exists a, b. repeat split; auto. eapply rst_trans; [apply rst_sym|]; eauto.
    + right. exists a, d. auto.
Qed.

Lemma incident_perm : forall L L' (f : nat -> nat), (forall n, nth_error L' n = nth_error L (f n)) -> forall j v, incident (graph L') j v -> incident (graph L) (f j) v.
Proof. intros L L' f H j v [vs [X Y]]. exists vs. split; auto. cbn in *. rewrite <- H. auto. Qed.
Lemma acyc_perm : forall L L', Permutation L L' -> acyc L -> acyc L'.
Proof.
  intros L L' P H c C. apply Permutation_nth_error in P. destruct P as [_ [f [Inj F]]].
  apply (H (map (fun x => match x with NV v => NV v | NF j => NF (f j) end) c)). eapply cycle_map; eauto.
  - intros [a|a] [b|b] _ _ Q; try discriminate; auto. injection Q as Q. apply Inj in Q. subst. auto.
  - intros [a|a] [b|b] _ _ Q; try destruct Q; cbn in *; eapply incident_perm; eauto; eexists; eauto.
Qed.
Lemma linked_perm : forall L L' u v, Permutation L L' -> linked L' u v -> linked L u v.
Proof.
  intros L L' u v P H. apply Permutation_nth_error in P. destruct P as [_ [f [Inj F]]]. induction H as [u v [j [X Y]]|u|u v H IH|u v w H1 IH1 H2 IH2].
  - apply rst_step. exists (f j). split; eapply incident_perm; eauto.
  - apply rst_refl.
  - apply rst_sym. auto.
  - eapply rst_trans; eauto.
Qed.
Lemma nth_error_none : forall A i, nth_error (@nil A) i = None.
Proof. intros A [|i]; reflexivity. Qed.
Lemma acyc_nil : acyc [].
Proof. intros c C. destruct c as [|x c]. { destruct C as [_ [L _]]. cbn in L. lia. } destruct (cycle_edge _ _ _ x C (or_introl eq_refl)) as [y [_ Q]]. destruct x as [a|a], y as [b|b]; auto; destruct Q as [vs [Q _]]; cbn in Q; rewrite nth_error_none in Q; discriminate. Qed.
Lemma linked_nil : forall u v, linked [] u v -> u = v.
Proof. intros u v H. induction H as [u v [j [[vs [Q _]] _]]| | |]; auto; [cbn in Q; rewrite nth_error_none in Q; discriminate|congruence]. Qed.
(** A variable without factors is linked to no other. *)
Lemma linked_alone : forall L u v, (forall vs, In vs L -> ~ In u vs) -> linked L u v \/ linked L v u -> u = v.
Proof.
  intros L u v N H. assert (Q : forall a b, linked L a b -> (a = u <-> b = u)).
  { induction 1 as [a b [j [[x [X1 X2]] [y [Y1 Y2]]]]|a|a b H1 IH|a b d H1 IH1 H2 IH2]; try tauto. cbn in X1, Y1. apply nth_error_In in X1, Y1. split; intros ->; exfalso. { apply (N x X1 X2). } { apply (N y Y1 Y2). } }
  destruct H as [H|H]; apply Q in H; symmetry; tauto.
Qed.

Lemma acyc_unary : forall L1 L2, acyc L1 -> Forall (fun vs => length vs <= 1) L2 -> acyc (L1 ++ L2).
Proof.
  intros L1 L2 H F. revert L1 H. induction F as [|x L2 Hx F IH]; intros L1 H. { rewrite app_nil_r. auto. }
  replace (L1 ++ x :: L2) with ((L1 ++ [x]) ++ L2) by (rewrite <- app_assoc; auto). apply IH. apply acyc_app; auto. intros a b Ia Ib _. destruct x as [|y [|z x]]; cbn in *; try lia; tauto.
Qed.
Lemma filter_split : forall A (p : A -> bool) l, Permutation (filter p l ++ filter (fun x => negb (p x)) l) l.
Proof.
  intros A p. induction l as [|x l IH]; cbn [filter]; auto. destruct (p x); cbn [negb app]; auto. symmetry. apply Permutation_cons_app. symmetry. auto.
Qed.
Definition wide (vs : list nat) : bool := 1 <? length vs.
Lemma acyc_wide : forall L, acyc (filter wide L) -> acyc L.
Proof.
  intros L H. apply (acyc_perm _ _ (filter_split _ wide L)). apply acyc_unary; auto. apply Forall_forall. intros x I. apply filter_In in I. destruct I as [_ I]. unfold wide in I. apply negb_true_iff, Nat.ltb_ge in I. auto.
Qed.
Lemma acyc_narrow : forall L, acyc L -> acyc (filter wide L).
Proof.
  intros L H. assert (Q : forall L1 L2, acyc (L1 ++ L2) -> acyc L1).
  { intros L1 L2 Hc c C. apply (Hc c). replace c with (map (fun x : node => x) c) by apply map_id. eapply cycle_map; eauto.
    assert (I : forall j v, incident (graph L1) j v -> incident (graph (L1 ++ L2)) j v). { intros j v [vs [X Y]]. exists vs. split; auto. cbn in *. rewrite nth_error_app1; auto. apply nth_error_Some. congruence. }
    intros [a|a] [b|b] _ _ X; cbn in *; auto. }
  apply (Q _ (filter (fun x => negb (wide x)) L)). eapply acyc_perm; [symmetry; apply filter_split|auto].
Qed.

(** Renaming the variables. *)
Lemma acyc_rename : forall L n ren, acyc L -> (forall vs v, In vs L -> In v vs -> v < n) -> (forall a b, a < n -> b < n -> ren a = ren b -> a = b) -> acyc (map (map ren) L).
Proof.
  intros L n ren H B Inj c C. set (inv := fun k => match find (fun a => ren a =? k) (seq 0 n) with Some a => a | None => 0 end).
  assert (IV : forall a, a < n -> inv (ren a) = a).
  { intros a Ha. unfold inv. destruct (find (fun x => ren x =? ren a) (seq 0 n)) as [x|] eqn:F.
    - apply find_some in F. destruct F as [F1 F2]. apply in_seq in F1. apply Nat.eqb_eq in F2. apply Inj; auto; lia.
    - exfalso. assert (I : In a (seq 0 n)) by (apply in_seq; lia). apply (find_none _ _ F) in I. apply Nat.eqb_neq in I. auto. }
  assert (X : forall j k, incident (graph (map (map ren) L)) j k -> exists a, a < n /\ ren a = k /\ incident (graph L) j a).
  { intros j k [vs [Q1 Q2]]. cbn in Q1. rewrite nth_error_map in Q1. destruct (nth_error L j) as [ws|] eqn:EJ; [|discriminate]. cbn in Q1. injection Q1 as <-. apply in_map_iff in Q2. destruct Q2 as [a [A1 A2]]. exists a. split; [eapply B; eauto; eapply nth_error_In; eauto|]. split; auto. exists ws. auto. }
  apply (H (map (fun x => match x with NV k => NV (inv k) | NF j => NF j end) c)). eapply cycle_map; eauto.
  - assert (Y : forall k, In (NV k) c -> ren (inv k) = k). { intros k I. destruct (cycle_edge _ _ _ _ C I) as [y [_ Ey]]. destruct y as [b|j]; [destruct Ey|]. destruct (X j k Ey) as [a [A1 [A2 _]]]. subst k. rewrite IV; auto. }
    intros [a|a] [b|b] Ia Ib Q; try discriminate; auto. injection Q as Q. apply (f_equal ren) in Q. rewrite !Y in Q by auto. congruence.
  - intros [a|a] [b|b] _ _ Q; try destruct Q; cbn in *; destruct (X _ _ (ex_intro _ _ H0)) as [z [Z1 [Z2 Z3]]]; subst; rewrite IV; auto.
Qed.
