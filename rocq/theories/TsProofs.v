(** Proofs for the solver of the sub-models of TRWS: single steps. *)
From Coq Require Import QArith Qcanon Permutation Lqa.
From Verif Require Import Base Values GmView GmViewSpec ConstraintModel ConstraintProofs DualDecompProofs HoeProofs LpbModel PmModel TsModel TsSpec.
Open Scope nat_scope.

Ltac ql :=
  repeat match goal with
  | |- context [@nth Qc ?i ?l ?d] => let z := fresh "z" in set (z := @nth Qc i l d) in *; clearbody z
  | H : context [@nth Qc ?i ?l ?d] |- _ => lazymatch type of H with forall _, _ => fail | _ => let z := fresh "z" in set (z := @nth Qc i l d) in *; clearbody z end
  end; qlra.
Definition ismin (k : nat) (f : nat -> Qc) (v : Qc) : Prop := (forall x, x < k -> (v <= f x)%Qc) /\ exists x, x < k /\ v = f x.
Lemma ismin_ext : forall k f h v, (forall x, x < k -> f x = h x) -> ismin k f v -> ismin k h v.
Proof. intros k f h v E [A (x & X & B)]. split; [intros z Z; rewrite <- E by auto; auto|]. exists x. rewrite <- E by auto. auto. Qed.

Lemma nth_map_lt : forall (A B : Type) (f : A -> B) l i a b, i < length l -> nth i (map f l) b = f (nth i l a).
Proof. intros A B f l i a b H. rewrite (nth_indep _ b (f a)) by (rewrite map_length; auto). apply map_nth. Qed.
Lemma nth_first : forall (A : Type) (l : list A) m i d, i < m -> nth i (firstn m l) d = nth i l d.
Proof. induction l as [|a l IH]; intros m i d H; [rewrite firstn_nil; auto|]. destruct m; [lia|]. destruct i; cbn; auto. apply IH. lia. Qed.
Lemma best_from_ok : forall l i b v, let (b', v') := best_from l i b v in
  ((b' = b /\ v' = v) \/ exists k, k < length l /\ b' = i + k /\ v' = nth k l 0%Qc) /\ (v' <= v)%Qc /\ forall k, k < length l -> (v' <= nth k l 0)%Qc.
Proof.
  induction l as [|x l IH]; intros i b v; cbn [best_from].
  - split; [left; auto|]. split; [apply Qcle_refl|]. cbn. intros; lia.
  - destruct (Qc_lt x v) eqn:E.
    + apply Qc_lt_true in E. specialize (IH (S i) i x). destruct (best_from l (S i) i x) as [b' v']. destruct IH as (A & B & C). split; [|split].
      * right. destruct A as [[-> ->]|(k & Hk & -> & ->)]; [exists 0; cbn; repeat split; lia|exists (S k); cbn; repeat split; auto; lia].
      * qlra.
      * intros [|k] Hk; cbn in *; [auto|apply C; lia].
    + apply Qc_lt_false in E. specialize (IH (S i) b v). destruct (best_from l (S i) b v) as [b' v']. destruct IH as (A & B & C). split; [|split; auto].
      * destruct A as [A|(k & Hk & -> & ->)]; [auto|right; exists (S k); cbn; repeat split; auto; lia].
      * intros [|k] Hk; cbn in *; [qlra|apply C; lia].
Qed.
Lemma best_ok : forall l, 0 < length l -> exists b v, ts_best l = Ret (b, v) /\ b < length l /\ v = nth b l 0%Qc /\ forall k, k < length l -> (v <= nth k l 0)%Qc.
Proof.
  intros [|x l] H; [cbn in H; lia|]. cbn [ts_best]. pose proof (best_from_ok l 1 0 x) as B. destruct (best_from l 1 0 x) as [b v]. destruct B as (A & B & C). exists b, v. split; auto. split; [|split].
  - cbn. destruct A as [[-> _]|(k & Hk & -> & _)]; lia.
  - destruct A as [[-> ->]|(k & Hk & -> & ->)]; auto.
  - intros [|k] Hk; cbn in *; [auto|apply C; lia].
Qed.

Lemma rest_in : forall (u : list Qc) b z, b < length u -> (In z (firstn b u ++ skipn (S b) u) <-> exists x, x < length u /\ x <> b /\ z = nth x u 0%Qc).
Proof.
  induction u as [|a u IH]; intros b z H; cbn in H; [lia|]. destruct b as [|b].
  - cbn [firstn skipn app]. split.
    + intros I. destruct (In_nth u z 0%Qc I) as (k & Hk & <-). exists (S k). cbn. repeat split; lia.
    + intros (x & X & D & ->). destruct x as [|x]; [lia|]. cbn in *. apply nth_In. lia.
  - cbn [firstn app]. change (skipn (S (S b)) (a :: u)) with (skipn (S b) u). cbn [In]. rewrite IH by lia. split.
    + intros [<-|(x & X & D & ->)]; [exists 0; cbn; repeat split; lia|exists (S x); cbn; repeat split; lia].
    + intros (x & X & D & ->). destruct x as [|x]; [left; auto|]. right. exists x. cbn in *. repeat split; auto; lia.
Qed.

(** The fast transformation is the minimum over the labels before. *)
Definition pcost (p0 p1 : Qc) (x y : nat) : Qc := (p1 + (if x =? y then 0 else p0))%Qc.
Lemma transform_ok : forall u m p0 p1, 0 < length u -> exists c, ts_transform u m p0 p1 = Ret c /\ length c = m /\ forall y, y < m -> ismin (length u) (fun x => nth x u 0 + pcost p0 p1 x y)%Qc (nth y c 0%Qc).
Proof.
  intros u m p0 p1 H. destruct (best_ok u H) as (b & v & E & Hb & Ev & M). unfold ts_transform. rewrite E. cbn [bind].
  set (u1 := map (fun x => if Qc_lt x (v + p0)%Qc then x else (v + p0)%Qc) u).
  set (u2 := if Qc_lt p0 0 then _ else u1). set (u3 := if Qc_eq_bool p1 0 then u2 else _).
  assert (L1 : length u1 = length u) by (unfold u1; apply map_length).
  assert (L2 : length u2 = length u) by (unfold u2; destruct (Qc_lt p0 0); rewrite ?length_upd; auto).
  assert (L3 : length u3 = length u) by (unfold u3; destruct (Qc_eq_bool p1 0); rewrite ?map_length; auto).
  assert (N1 : forall y, y < length u -> nth y u1 0%Qc = if Qc_lt (nth y u 0%Qc) (v + p0)%Qc then nth y u 0%Qc else (v + p0)%Qc).
  { intros y Hy. unfold u1. rewrite (nth_map_lt _ _ _ u y 0%Qc 0%Qc) by auto. reflexivity. }
  assert (N3 : forall y, y < length u -> nth y u3 0%Qc = (p1 + nth y u2 0)%Qc).
  { intros y Hy. unfold u3. destruct (Qc_eq_bool p1 0) eqn:EP.
    - apply Qc_eq_bool_correct in EP. subst p1. ring.
    - rewrite (nth_map_lt _ _ _ u2 y 0%Qc 0%Qc) by lia. reflexivity. }
  assert (N2 : forall y, y < length u -> ismin (length u) (fun x => nth x u 0 + (if x =? y then 0 else p0))%Qc (nth y u2 0%Qc)).
  { intros y Hy. unfold u2. destruct (Qc_lt p0 0) eqn:EP.
    - apply Qc_lt_true in EP. destruct (Nat.eq_dec y b) as [->|D].
      + rewrite nth_upd_eq by (rewrite L1; auto). pose proof (rest_in u b) as RI. destruct (firstn b u ++ skipn (S b) u) as [|z l] eqn:ER.
        * assert (forall x, x < length u -> x = b). { intros x Hx. destruct (Nat.eq_dec x b); auto. exfalso. assert (In (nth x u 0%Qc) []) by (apply RI; auto; exists x; auto). auto. }
          split; [intros x Hx; rewrite (H0 x Hx), Nat.eqb_refl; rewrite Ev; ql|]. exists b. rewrite Nat.eqb_refl. split; auto. rewrite Ev. ring.
        * pose proof (best_from_ok l 1 0 z) as B. destruct (best_from l 1 0 z) as [k s]. destruct B as (A1 & A2 & A3). cbn [snd].
          assert (IS : In s (z :: l)). { destruct A1 as [[_ ->]|(q & Hq & _ & ->)]; [left; auto|right; apply nth_In; auto]. }
          assert (LS : forall w, In w (z :: l) -> (s <= w)%Qc). { intros w [<-|I]; auto. destruct (In_nth l w 0%Qc I) as (q & Hq & <-). auto. }
          apply RI in IS as (xs & Hx & Dx & ES); auto. split.
          -- intros x Hx'. unfold ts_min. destruct (Nat.eqb_spec x b) as [->|Dxb].
             ++ destruct (Qc_lt (s + p0) v) eqn:EM; [apply Qc_lt_true in EM|]; rewrite <- Ev; ql.
             ++ assert (s <= nth x u 0)%Qc by (apply LS; apply RI; auto; exists x; auto). destruct (Qc_lt (s + p0) v) eqn:EM; [ql|apply Qc_lt_false in EM; ql].
          -- unfold ts_min. destruct (Qc_lt (s + p0) v) eqn:EM.
             ++ exists xs. split; auto. destruct (Nat.eqb_spec xs b); [congruence|]. rewrite ES. reflexivity.
             ++ exists b. rewrite Nat.eqb_refl. split; auto. rewrite <- Ev. ring.
      + rewrite nth_upd_neq by auto. rewrite N1 by auto. pose proof (M y Hy) as My. destruct (Qc_lt (nth y u 0%Qc) (v + p0)%Qc) eqn:EL; [apply Qc_lt_true in EL; exfalso; ql|]. split.
        * intros x Hx. pose proof (M x Hx). destruct (x =? y); ql.
        * exists b. split; auto. destruct (Nat.eqb_spec b y); [congruence|]. rewrite <- Ev. reflexivity.
    - apply Qc_lt_false in EP. rewrite N1 by auto. destruct (Qc_lt (nth y u 0%Qc) (v + p0)%Qc) eqn:EL.
      + apply Qc_lt_true in EL. split.
        * intros x Hx. pose proof (M x Hx). destruct (Nat.eqb_spec x y) as [->|]; ql.
        * exists y. rewrite Nat.eqb_refl. split; auto. ring.
      + apply Qc_lt_false in EL. split.
        * intros x Hx. pose proof (M x Hx). destruct (Nat.eqb_spec x y) as [->|]; ql.
        * exists b. split; auto. destruct (Nat.eqb_spec b y) as [->|]; rewrite <- Ev; [rewrite <- Ev in EL; ql|reflexivity]. }
  eexists. split; [reflexivity|]. destruct (m <? length u3) eqn:EM.
  - apply Nat.ltb_lt in EM. split; [rewrite firstn_length; lia|]. intros y Hy. rewrite nth_first by lia. rewrite N3 by lia. destruct (N2 y ltac:(lia)) as [A (x & Hx & B)]. unfold pcost. split.
    + intros z Hz. specialize (A z Hz). cbn beta in A. ql.
    + exists x. split; auto. rewrite B. ring.
  - apply Nat.ltb_ge in EM. split; [rewrite app_length, repeat_length; lia|]. intros y Hy. destruct (Nat.lt_ge_cases y (length u3)) as [Hl|Hl].
    + rewrite app_nth1 by auto. rewrite N3 by lia. destruct (N2 y ltac:(lia)) as [A (x & Hx & B)]. unfold pcost. split.
      * intros z Hz. specialize (A z Hz). cbn beta in A. ql.
      * exists x. split; auto. rewrite B. ring.
    + rewrite app_nth2 by auto. rewrite (nth_indep _ 0%Qc (p0 + p1 + v)%Qc) by (rewrite repeat_length; lia). rewrite nth_repeat. unfold pcost. split.
      * intros z Hz. pose proof (M z Hz). destruct (Nat.eqb_spec z y); [lia|ql].
      * exists b. split; auto. destruct (Nat.eqb_spec b y); [lia|]. rewrite <- Ev. ring.
Qed.
