(** Proofs for tentacle elimination: the whole call. *)
From Coq Require Import Sorted Relations Permutation.
From Verif Require Import Base Values GmView GmViewSpec GmViewProofs ShapeSpec FactorGraphModel FactorGraphSpec SubmodelModel SubmodelProps ManipulatorModel MpModel MpSpec DecompForest GmProofs IcmProofs DpProofs ManipulatorProofs ManipulatorProps TentacleModel TentacleSpec TentaclePeel TentacleTree TentacleComp TentacleGmt TentacleRun TentacleElim TentacleLoop.
#[local] Arguments nth_error : simpl never.

Section S.
Variable T : Type.
Variable OP : oper T.
Variable ACC : accum T.
Variable fin : T -> Prop.
Hypothesis OL : op_laws fin OP.
Hypothesis AL : acc_laws fin OP ACC.
Variable g : gmv T.
Hypothesis W : wf_gmv g.
Hypothesis FG : fin_gmv fin g.
Variable solve_rooted : gmv T -> nat -> outcome (list T * list (list nat)).
Variable solve_free : gmv T -> outcome (list nat).
Variable MO : nat.
Hypothesis HMO : order_at_most MO g.
Hypothesis SR : rooted_exact fin OP ACC MO solve_rooted.
Hypothesis SF : free_exact fin OP ACC MO solve_free.
Notation n := (length (v_labels g)).
Notation nf := (length (v_factors g)).
Notation lab v := (nth v (v_labels g) 0).

(** A tentacle fits the model. *)
Record tent_fits (fx : list bool) (t : tent T) : Prop := {
  tf_ok : root_ok T fin g t; tf_free : fr fx (t_root t) = true;
  tf_root : In (t_root t) (t_vars t); tf_nd : NoDup (t_vars t); tf_lt : forall v, In v (t_vars t) -> v < n;
  tf_len : length (t_cand t) = lab (t_root t);
  tf_cand : forall l, l < lab (t_root t) -> length (cand T t l) = length (t_vars t) /\ nth (pos (t_vars t) (t_root t)) (cand T t l) 0 = l /\
              forall v, In v (t_vars t) -> nth (pos (t_vars t) v) (cand T t l) 0 < lab v }.
(** What the elimination leaves, from variables [fix0] fixed to [lab0]. *)
Record elim_done (fix0 : list bool) (lab0 : list nat) (fx : list bool) (lb : list nat) (tn : list bool) (ts : list (tent T)) : Prop := {
  ed_lf : length fx = n; ed_ll : length lb = n; ed_ln : length tn = nf;
  ed_free : forall v, fr fx v = true -> fr fix0 v = true;
  ed_lab : forall v, v < n -> fr fx v = false -> nth v lb 0 < lab v;
  ed_tent : forall k u v, nth k tn false = true -> In u (vars T g k) -> In v (vars T g k) -> fr fx u = true -> fr fx v = true -> u = v;
  ed_tents : Forall (tent_fits fx) ts;
  ed_s1 : forall z, labeling g z -> agrees T g fx lb z -> let x := tlz T g ts z in
     labeling g x /\ agrees T g fix0 lab0 x /\ total OP g x = total OP (reduced T OP g tn ts) z /\ (forall v, v < n -> fr fx v = true -> nth v x 0 = nth v z 0);
  ed_s2 : forall z, labeling g z -> agrees T g fix0 lab0 z -> exists z', labeling g z' /\ agrees T g fx lb z' /\ (forall v, v < n -> fr fx v = true -> nth v z' 0 = nth v z 0) /\
     a_bop ACC (total OP g z) (total OP (reduced T OP g tn ts) z') = false }.

Variable fix0 : list bool.
Variable lab0 : list nat.
Hypothesis LF0 : length fix0 = n.
Hypothesis LL0 : length lab0 = n.
Hypothesis LB0 : forall v, v < n -> fr fix0 v = false -> nth v lab0 0 < lab v.
Hypothesis HB : forall v, fr fix0 v = true -> v < nf.

Lemma done_start : elim_done fix0 lab0 fix0 lab0 (repeat false nf) [].
Proof.
  constructor; rewrite ?repeat_length; auto.
  - intros k u v H. rewrite nth_false in H. discriminate.
  - intros z HZ AZ. cbn [tlz fold_left]. cbv zeta. split; auto. split; auto. split; auto. symmetry. apply (start_total T OP fin OL); auto.
  - intros z HZ AZ. exists z. split; auto. split; auto. split; auto. rewrite (start_total T OP fin OL) by auto. apply (al_irrefl _ _ _ AL). rewrite (total_big T OP fin OL) by auto. apply (big_fin T OP fin OL); intros; apply (val_fin T OP fin OL); auto.
Qed.
Lemma roots_ok : forall pop p, pinv T g fix0 pop p -> exists ir, roots_of T g p = Ret ir /\ length ir = n /\ (p_leafs p = [] -> forall v, nth v ir false = true <-> is_root T g fix0 pop p v).
Proof.
  intros pop p PI. set (h := fun v => if nth v (p_in p) false then 0 <? nth v (p_vd p) 0 else false).
  exists (map h (seq 0 n)). split; [|split; [rewrite map_length, seq_length; auto|]].
  - unfold roots_of. apply mapM_Ret. intros v Hv. apply in_seq in Hv. rewrite (rd_nth _ _ v false) by (rewrite (pi_lin _ _ _ _ _ PI); lia). cbn [bind]. unfold h. destruct (nth v (p_in p) false); auto. rewrite (rd_nth _ _ v 0) by (rewrite (pi_lvd _ _ _ _ _ PI); lia). auto.
  - intros PL v. destruct (Nat.lt_ge_cases v n) as [L|L].
    + rewrite (nth_indep _ false (h 0)), map_nth by (rewrite map_length, seq_length; auto). rewrite seq_nth by auto. cbn [Nat.add]. unfold h, is_root, is_in. destruct (nth v (p_in p) false) eqn:E; [|split; [discriminate|intros [X _]; discriminate]].
      rewrite (pi_vd _ _ _ _ _ PI v) by (apply (in_fr T g fix0 pop p PI PL); exact E). rewrite Nat.ltb_lt. tauto.
    + rewrite nth_overflow by (rewrite map_length, seq_length; auto). split; [discriminate|]. intros [X _]. unfold is_in in X. rewrite nth_overflow in X by (rewrite (pi_lin _ _ _ _ _ PI); auto). discriminate.
Qed.

Theorem elimination_ok : forall m, a_locked m = false -> a_fix m = fix0 -> a_lab m = lab0 -> firstn nf (a_tent m) ++ repeat false (nf - length (a_tent m)) = repeat false nf ->
  exists fx lb tn ts, lockAndTentacelElimination T g FIX solve_rooted solve_free (mkTman m []) = Ret (mkTman (mkMan true fx lb tn (a_mgm m) (a_subs m) (a_v2s m)) ts) /\ elim_done fix0 lab0 fx lb tn ts.
Proof.
  intros m LK EF EL ET. unfold lockAndTentacelElimination. cbn [tm_man tm_tents]. rewrite LK. unfold lock. cbn [bind a_fix a_lab a_tent a_mgm a_subs a_v2s]. rewrite EF, EL, ET.
  destruct (TentaclePeel.init_ok T g W fix0 LF0 HB) as (p0 & -> & PI0). cbn [bind]. destruct (p_leafs p0) as [|v0 ls] eqn:EP; [do 4 eexists; split; [reflexivity|]; apply done_start|]. clear EP v0 ls.
  destruct (peel_loop_ok T g W fix0 LF0 HB (S n) [] p0 PI0) as (pop & p & -> & PI & PL); [cbn; lia|]. cbn [bind].
  destruct (roots_ok pop p PI) as (ir & -> & LR & HR). specialize (HR PL). cbn [bind].
  pose proof (pi_lin _ _ _ _ _ PI) as LI. pose proof (pi_ltf _ _ _ _ _ PI) as LT.
  assert (B1 : forall v, nth v (p_in p) false = true -> fr fix0 v = true) by (intros v; apply (in_fr T g fix0 pop p PI PL)).
  assert (B2 : forall k v, nth k (p_tf p) false = true -> In v (fvars T g fix0 k) -> nth v (p_in p) false = true) by (intros k v; apply (tf_in T g W fix0 LF0 pop p PI PL)).
  assert (B3 : forall v k, nth v (p_in p) false = true -> nth v ir false <> true -> In v (fvars T g fix0 k) -> nth k (p_tf p) false = true).
  { intros v k A B. apply (not_root_tf T g W fix0 LF0 pop p PI PL); auto. rewrite <- HR. auto. }
  assert (B4 : forall a b, clos_refl_sym_trans nat (share0 T g fix0 (p_tf p)) a b -> nth a ir false = true -> nth b ir false = true -> a = b).
  { intros a b X A B. apply (one_root T g W fix0 LF0 pop p PI PL a b X); apply HR; auto. }
  assert (B5 : forall c, ~ cycle (edge0 T g fix0 (p_tf p)) c) by (apply (no_cycle T g W fix0 LF0 pop p PI)).
  pose proof (elim_start T OP ACC fin OL AL g W FG fix0 (p_tf p) (p_in p) ir lab0 LF0 LL0 LT LB0) as I0.
  destruct (elim_run_ok T OP ACC fin OL AL g W FG solve_rooted solve_free MO HMO SR SF fix0 (p_tf p) (p_in p) ir lab0 LF0 LL0 LT LI LR B1 B2 B3 B4 B5 (seq 0 n) _ I0) as (e & -> & I & VS & _); [intros v Hv; apply in_seq in Hv; lia|]. cbn [bind].
  do 4 eexists. split; [reflexivity|]. destruct I as [J1 J2 J3 J4 J5 J6 JF JT JC JI JN JL0 JL JG JS1 JS2]. constructor; auto.
  - intros v F. apply JF in F. tauto.
  - intros k u v K Iu Iv Fu Fv. destruct (JN k K) as (KT & w & Iw & Vw).
    assert (RT : forall x, In x (vars T g k) -> fr (e_fix e) x = true -> In x (fvars T g fix0 k) /\ nth x ir false = true).
    { intros x Ix Fx. apply JF in Fx. destruct Fx as [F0 R]. assert (X : In x (fvars T g fix0 k)) by (apply fvars_In; auto). split; auto. apply R. apply (JC k w x); auto. }
    destruct (RT u Iu Fu) as [U1 U2], (RT v Iv Fv) as [V1 V2]. apply B4; auto. apply rst_step. exists k. auto.
  - eapply Forall_impl; [|exact JG]. intros t [G1 G2 G3 G4 G5 G6 G7]. constructor; auto.
    + apply JF. split; [apply B1, JI, G4; auto|auto].
    + intros v Hv. apply (fr_lt T g fix0 LF0). apply B1, JI, G4. auto.
Qed.
End S.
