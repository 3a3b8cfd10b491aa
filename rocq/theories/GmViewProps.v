(** The view of a model used by inference algorithms is faithful (C11, C12), and the laws assumed about
    operations and accumulations hold for those of the library. *)
From Coq Require Import Sorted QArith Qcanon.
From Verif Require Import Base Values GmModel GmSpec GmProofs GmProps GmView GmViewSpec ShapeSpec GmViewProofs OperationsModel.
Local Open Scope nat_scope.
#[local] Arguments nth_error : simpl never.

Section Link.
Variable T : Type.
Variable OP : oper T.
Variable feqb : func T -> func T -> bool.

(** A view of a model: the same label counts and, for each factor, its variables and the values of its function. *)
Definition viewed (m : amodel T) (g : gmv T) : Prop :=
  v_labels g = am_labels m /\
  Forall2 (fun af fc => snd af = fst fc /\ exists f, am_function T m (fst (fst af)) (snd (fst af)) = Some f /\ snd fc = f_call f)
          (am_factors m) (v_factors g).

Lemma viewed_exists : forall m, Forall (wf_factor T m) (am_factors m) -> exists g, viewed m g.
Proof.
  intros m H.
  assert (G : exists l, Forall2 (fun af (fc : list nat * (list nat -> T)) => snd af = fst fc /\ exists f, am_function T m (fst (fst af)) (snd (fst af)) = Some f /\ snd fc = f_call f) (am_factors m) l).
  { induction H as [|[[i t] vis] l Hw H [l' IH]]; [exists []; constructor|].
    destruct Hw as ((f & Ef & _) & _). exists ((vis, f_call f) :: l'). constructor; auto. cbn. eauto. }
  destruct G as [l Hl]. exists (mkGmv (am_labels m) l). split; auto.
Qed.

Lemma viewed_combine : forall m g x, viewed m g -> combine T OP m x = Some (total OP g x).
Proof.
  intros m g x [_ H]. unfold combine, total. generalize (o_neutral OP) as acc.
  induction H as [|[[i t] vis] [vis' fn] l1 l2 [E1 (f & E2 & E3)] H IH]; intros acc; auto. cbn [fst snd] in *. subst.
  cbn [combine_from fold_left fst snd]. rewrite E2. rewrite IH. auto.
Qed.

Lemma filter_ext2 : forall (p q : nat -> bool) l, (forall k, In k l -> p k = q k) -> filter p l = filter q l.
Proof. intros p q l H. induction l as [|a l IH]; auto. cbn. rewrite H by (left; auto). rewrite IH; auto. intros. apply H. right. auto. Qed.

Lemma viewed_adj : forall m g v, viewed m g -> adj_of T m v = v_adj T g v.
Proof.
  intros m g v [_ H]. unfold adj_of, v_adj. rewrite (Forall2_len _ _ _ _ _ H). apply filter_ext2. intros k Hk.
  destruct (nth_error (v_factors g) k) as [[vis f]|] eqn:E.
  - destruct (Forall2_nth_r _ _ _ _ _ _ _ H E) as ([[i t] vis'] & E' & X & _). cbn in X. subst. rewrite E'. auto.
  - destruct (nth_error (am_factors m) k) as [[i vis]|] eqn:E'; auto. apply nth_error_None in E.
    assert (k < length (am_factors m)) by (apply nth_error_Some; congruence). rewrite (Forall2_len _ _ _ _ _ H) in *. lia.
Qed.

(** ** C11, C12 through the view: every model of every legal history has a view that evaluates alike and
    has the same factors at each variable; if every variable has a label it is well-formed. *)
Theorem C11_view : forall ops w rs, history T feqb ops w rs ->
  exists h, grun T feqb ops = Ret (h, rs) /\
  forall a m, live T w a m -> exists g, viewed m g /\
    (positive (am_labels m) -> wf_gmv g) /\
    (forall x, length (am_labels m) <= length x -> evaluate T OP h a x = Ret (total OP g x)) /\
    (forall x, length (am_labels m) <= length x -> evaluate T OP h a x = v_evaluate T OP g x) /\
    (am_final m = true -> exists gm, deref T h a = Ret gm /\ forall v, v < length (v_labels g) ->
        numberOfFactorsOf T gm v = Ret (length (v_adj T g v)) /\
        forall k f, nth_error (v_adj T g v) k = Some f -> factorOfVariable T gm v k = Ret f).
Proof.
  intros ops w rs H. destruct (history_sim T feqb ops w rs H) as [h [E I]]. exists h. split; auto.
  intros a m HL. destruct (inv_live T h w a m I HL) as [gm [D [_ R]]].
  destruct (viewed_exists m (r_wf _ _ _ _ R)) as [g V]. exists g. split; auto.
  assert (EV : forall x, length (am_labels m) <= length x -> evaluate T OP h a x = Ret (total OP g x)).
  { intros x Hx. destruct (evaluate_rep T OP h a gm m x D R Hx) as (v & C & EE). rewrite (viewed_combine m g x V) in C. injection C as <-. auto. }
  assert (HW : Forall (fun fc => StronglySorted lt (fst fc) /\ Forall (fun v => v < length (v_labels g)) (fst fc)) (v_factors g)).
  { apply Forall_forall. intros fc Hin. apply In_nth_error in Hin. destruct Hin as [k Ek]. destruct V as [V1 V2].
    destruct (Forall2_nth_r _ _ _ _ _ _ _ V2 Ek) as (af & Eaf & X & _). rewrite <- X, V1.
    pose proof (r_wf _ _ _ _ R) as RW. rewrite Forall_forall in RW. specialize (RW af (nth_error_In _ _ Eaf)).
    destruct af as [[i t] vis]. destruct RW as [_ RW]. exact RW. }
  split; [intros P; split; auto; rewrite (proj1 V); auto|]. split; auto. split.
  - intros x Hx. rewrite EV by auto. symmetry. unfold v_evaluate, total. rewrite <- (proj1 V) in Hx.
    generalize (o_neutral OP). clear - HW Hx. induction HW as [|fc fcs [_ Hf] HW IH]; intros acc; auto. cbn [foldM fold_left].
    rewrite fvalue_Ret; [cbn [bind]; apply IH|]. eapply Forall_impl; [|exact Hf]. cbn. lia.
  - intros F. destruct (adjacency_rep T h a gm m D R F) as (gm' & D' & HA). exists gm'. split; auto. intros v Hv. rewrite (proj1 V) in Hv.
    rewrite <- (viewed_adj m g v V). auto.
Qed.
End Link.
Print Assumptions C11_view.

(** ** The laws hold: exact numbers with addition, minimised or maximised *)
Definition finite (a : ext) : Prop := exists z, a = Fin z.

Lemma adderE_laws : op_laws finite AdderE.
Proof.
  split; unfold finite; cbn; unfold Adder_neutral, Adder_op2, Adder_iop2.
  - eauto.
  - intros a b [x ->] [y ->]. cbn. eauto.
  - intros a b [x ->] [y ->]. cbn. eauto.
  - intros a b [x ->] [y ->]. cbn. f_equal. lia.
  - intros a b c [x ->] [y ->] [z ->]. cbn. f_equal. lia.
  - intros a [x ->]. cbn. f_equal. lia.
  - intros a b [x ->] [y ->]. cbn. f_equal. lia.
  - intros a b [x ->] [y ->]. cbn. f_equal. lia.
Qed.
Lemma minimizerE_laws : acc_laws finite AdderE MinimizerE.
Proof.
  split; unfold finite; cbn; unfold Adder_op2, Minimizer_bop, Maximizer_bop, Minimizer_op2, Maximizer_op2, Minimizer_neutral, Maximizer_neutral.
  - intros a [x ->]. cbn. apply Z.ltb_irrefl.
  - intros a b c [x ->] [y ->] [z ->]. cbn. rewrite !Z.ltb_lt. lia.
  - intros a b c [x ->] [y ->] [z ->]. cbn. rewrite !Z.ltb_ge. lia.
  - intros a b c [x ->] [y ->] [z ->]. cbn. destruct (Z.ltb_spec (x + z) (y + z)), (Z.ltb_spec x y); auto; lia.
Qed.
Lemma minimizerE_select : acc_select finite MinimizerE.
Proof.
  split; unfold finite; cbn; unfold Adder_op2, Minimizer_bop, Maximizer_bop, Minimizer_op2, Maximizer_op2, Minimizer_neutral, Maximizer_neutral.
  - intros a b [x ->] [y ->]. cbn. destruct (Z.ltb_spec x y), (Z.ltb_spec y x); split; intros; auto; try discriminate; try lia. f_equal. lia.
  - intros a [x ->]. cbn. auto.
Qed.
Lemma maximizerE_laws : acc_laws finite AdderE MaximizerE.
Proof.
  split; unfold finite; cbn; unfold Adder_op2, Minimizer_bop, Maximizer_bop, Minimizer_op2, Maximizer_op2, Minimizer_neutral, Maximizer_neutral.
  - intros a [x ->]. cbn. apply Z.ltb_irrefl.
  - intros a b c [x ->] [y ->] [z ->]. cbn. rewrite !Z.ltb_lt. lia.
  - intros a b c [x ->] [y ->] [z ->]. cbn. rewrite !Z.ltb_ge. lia.
  - intros a b c [x ->] [y ->] [z ->]. cbn. destruct (Z.ltb_spec (y + z) (x + z)), (Z.ltb_spec y x); auto; lia.
Qed.
Lemma maximizerE_select : acc_select finite MaximizerE.
Proof.
  split; unfold finite; cbn; unfold Adder_op2, Minimizer_bop, Maximizer_bop, Minimizer_op2, Maximizer_op2, Minimizer_neutral, Maximizer_neutral.
  - intros a b [x ->] [y ->]. cbn. destruct (Z.ltb_spec x y), (Z.ltb_spec y x); split; intros; auto; try discriminate; try lia. f_equal. lia.
  - intros a [x ->]. cbn. auto.
Qed.

(** ** The laws hold: positive rational numbers with multiplication, maximised *)
Definition qlt (a b : Qc) : bool := match Qclt_le_dec a b with left _ => true | right _ => false end.
Definition MultiplierQ : oper Qc := Multiplier Qc 1%Qc Qcmult Qcdiv.
(** The neutral element of the Maximizer, -infinity, does not exist among the rationals; 0 takes its place. *)
Definition MaximizerQ : accum Qc := Maximizer Qc qlt 0%Qc 0%Qc.
Definition qpos (a : Qc) : Prop := (0 < a)%Qc.

Lemma qpos_nz : forall a, qpos a -> a <> 0%Qc.
Proof. intros a H ->. exact (Qclt_not_eq _ _ H eq_refl). Qed.
Lemma qpos_mult : forall a b, qpos a -> qpos b -> qpos (a * b)%Qc.
Proof. unfold qpos. intros a b Ha Hb. replace 0%Qc with (0 * b)%Qc by ring. apply Qcmult_lt_compat_r; auto. Qed.
Lemma qpos_inv : forall a, qpos a -> qpos (/ a)%Qc.
Proof.
  unfold qpos. intros a Ha. destruct (Qclt_le_dec 0 (/ a)%Qc) as [|H]; auto. exfalso.
  assert ((/ a) * a <= 0 * a)%Qc as X by (apply Qcmult_le_compat_r; [auto|apply Qclt_le_weak; auto]).
  rewrite Qcmult_0_l in X. rewrite Qcmult_inv_l in X by (apply qpos_nz; auto). apply (Qcle_not_lt _ _ X). reflexivity.
Qed.
Lemma qlt_iff : forall a b, qlt a b = true <-> (a < b)%Qc.
Proof. intros a b. unfold qlt. destruct (Qclt_le_dec a b) as [H|H]; split; intros X; auto; try discriminate. exfalso. eapply Qcle_not_lt; eauto. Qed.
Lemma qlt_false : forall a b, qlt a b = false <-> (b <= a)%Qc.
Proof. intros a b. unfold qlt. destruct (Qclt_le_dec a b) as [H|H]; split; intros X; auto; try discriminate. exfalso. eapply Qcle_not_lt; eauto. Qed.

Lemma multiplierQ_laws : op_laws qpos MultiplierQ.
Proof.
  split; cbn; unfold Multiplier_op2, Multiplier_iop2, Multiplier_neutral, Qcdiv.
  - reflexivity.
  - intros a b Ha Hb. apply qpos_mult; auto.
  - intros a b Ha Hb. apply qpos_mult; auto. apply qpos_inv; auto.
  - intros. ring.
  - intros. ring.
  - intros. ring.
  - intros a b Ha Hb. rewrite <- Qcmult_assoc, Qcmult_inv_r by (apply qpos_nz; auto). ring.
  - intros a b Ha Hb. rewrite <- Qcmult_assoc, (Qcmult_comm (/ a)), Qcmult_inv_r by (apply qpos_nz; auto). ring.
Qed.
Lemma maximizerQ_laws : acc_laws qpos MultiplierQ MaximizerQ.
Proof.
  split; cbn; unfold Maximizer_bop, Multiplier_op2.
  - intros a _. apply qlt_false. apply Qcle_refl.
  - intros a b c _ _ _. rewrite !qlt_iff. intros X Y. eapply Qclt_trans; eauto.
  - intros a b c _ _ _. rewrite !qlt_false. intros X Y. eapply Qcle_trans; eauto.
  - intros a b c Ha Hb Hc. destruct (qlt b a) eqn:E.
    + apply qlt_iff in E. apply qlt_iff. apply Qcmult_lt_compat_r; auto.
    + apply qlt_false in E. apply qlt_false. apply Qcmult_le_compat_r; auto. apply Qclt_le_weak. auto.
Qed.
Lemma maximizerQ_select : acc_select qpos MaximizerQ.
Proof.
  split; cbn; unfold Maximizer_op2, Maximizer_bop, Maximizer_neutral.
  - intros a b _ _. destruct (qlt a b) eqn:E1, (qlt b a) eqn:E2; split; intros; auto; try discriminate.
    + apply qlt_iff in E1, E2. exfalso. apply (Qclt_not_le _ _ E1). apply Qclt_le_weak. auto.
    + apply qlt_false in E1, E2. apply Qcle_antisym; auto.
  - intros a Ha. destruct (qlt a 0) eqn:E; [|split; auto; apply qlt_iff; auto].
    apply qlt_iff in E. exfalso. apply (Qclt_not_le _ _ E). apply Qclt_le_weak. auto.
Qed.
Print Assumptions maximizerQ_select.
