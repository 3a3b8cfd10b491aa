(** C20, tentacle elimination: the model and the sub-models that are left have the same best labelings. *)
From Coq Require Import Sorted Relations Permutation Relation_Operators.
From Verif Require Import Base Values GmView GmViewSpec GmViewProofs ShapeSpec UtilModel FunctionViewsModel MovemakerModel MovemakerSpec FactorGraphModel FactorGraphSpec SubmodelModel SubmodelProps ManipulatorModel ManipulatorSpec ManipulatorRep ManipulatorExpand MpModel MpSpec DecompForest GmProofs IcmProofs DpProofs ManipulatorProofs ManipulatorSubs ManipulatorProps TentacleModel TentacleSpec TentacleUseSpec TentaclePeel TentacleTree TentacleComp TentacleGmt TentacleRun TentacleElim TentacleLoop TentacleLock TentacleSim TentacleUse OperationsModel GmViewProps DpNodeModel DpNodeTree.
#[local] Arguments nth_error : simpl never.

Section S.
Variable T : Type.
Variable OP : oper T.
Variable ACC : accum T.
Variable fin : T -> Prop.
Hypothesis OL : op_laws fin OP.
Hypothesis AL : acc_laws fin OP ACC.
Variable g : gmv T.
Hypothesis W : wf_gmv g.
Hypothesis FG : fin_gmv fin g.
Variable solve_rooted : gmv T -> nat -> outcome (list T * list (list nat)).
Variable solve_free : gmv T -> outcome (list nat).
Variable MO : nat.
Hypothesis HMO : order_at_most MO g.
Hypothesis SR : rooted_exact fin OP ACC MO solve_rooted.
Hypothesis SF : free_exact fin OP ACC MO solve_free.
Notation n := (length (v_labels g)).

(** The run of a history of calls on a new manipulator, and the state a user expects. *)
Definition tent_run (ops : list tentop) : outcome (tman T) := foldM (tstep T OP g FIX solve_rooted solve_free) ops (tent_new T g).
Definition tent_state (ops : list tentop) : tstate := fold_left tsstep ops (ts_new n).
Definition tent_ok (ops : list tentop) : Prop := tent_legal_run g OP solve_rooted solve_free (ts_new n) (tent_new T g) ops.

Lemma free_sorted : forall fx : fixes, StronglySorted lt (free_vars fx).
Proof.
  intros fx. unfold free_vars. generalize (length fx). generalize 0. intros a k. revert a. induction k as [|k IH]; intros a; cbn [seq filter]; [constructor|]. destruct (is_free fx a); auto. constructor; auto. apply Forall_forall. intros x Hx. apply filter_In in Hx. destruct Hx as [Hx _]. apply in_seq in Hx. lia.
Qed.
Lemma total_fin' : forall z, labeling g z -> fin (total OP g z).
Proof. intros z HZ. rewrite (total_big T OP fin OL) by auto. apply (big_fin T OP fin OL). intros. apply (val_fin T OP fin OL); auto. Qed.

Definition leftover (t : tman T) : list nat := filter (fun v => negb (nth v (a_fix (tm_man t)) true)) (seq 0 n).
Lemma leftover_flags : forall t fx, length fx = n -> a_fix (tm_man t) = flags T g fx -> leftover t = free_vars fx.
Proof.
  intros t fx L E. unfold leftover, free_vars. rewrite L, E. apply filter_ext_in. intros v Hv. apply in_seq in Hv. change (negb (nth v (flags T g fx) true)) with (fr (flags T g fx) v). apply fr_flags. lia.
Qed.
(** What is left in any case: the reduced model, or the model itself. *)
Lemma tinv_use : forall s t, tinv T OP ACC fin g s t -> exists gr mr s1,
  let fx1 := ss_fix s1 in
  v_labels gr = v_labels g /\ inv T OP fin gr FIX s1 mr /\ length (ss_fix (ts_base s)) = n /\ length fx1 = n /\ a_fix (tm_man t) = flags T g fx1 /\ (forall v, v < n -> is_free fx1 v = true -> is_free (ss_fix (ts_base s)) v = true) /\
  ss_model s1 = ss_model (ts_base s) /\ ss_subs s1 = ss_subs (ts_base s) /\ (ss_model s1 = true -> a_locked (tm_man t) = true) /\
  a_mgm mr = a_mgm (tm_man t) /\ a_subs mr = a_subs (tm_man t) /\ a_v2s mr = a_v2s (tm_man t) /\
  (forall y ol, modifiedState2OriginalState T gr mr y ol = modifiedState2OriginalState T g (tm_man t) y ol) /\
  (forall ys conf, modifiedSubStates2OriginalState T gr mr ys conf = modifiedSubStates2OriginalState T g (tm_man t) ys conf) /\
  (forall z, labeling g z -> extends fx1 z -> exists x, tent_labels T (tm_tents t) z = Ret x /\ labeling g x /\ extends (ss_fix (ts_base s)) x /\ total OP g x = total OP gr z /\ at_vars x (free_vars fx1) = at_vars z (free_vars fx1)) /\
  (forall z, labeling g z -> extends (ss_fix (ts_base s)) z -> exists z', labeling g z' /\ extends fx1 z' /\ at_vars z' (free_vars fx1) = at_vars z (free_vars fx1) /\
     a_bop ACC (total OP g z) (total OP gr z') = false).
Proof.
  intros [s el] [m ts] I. unfold tinv in I. cbn [ts_elim ts_base tm_tents tm_man] in *.
  assert (AV : forall (fx1 : fixes) x z, length fx1 = n -> (forall v, v < n -> is_free fx1 v = true -> nth v x 0 = nth v z 0) -> at_vars x (free_vars fx1) = at_vars z (free_vars fx1)).
  { intros fx1 x z L H. apply map_ext_in. intros v Hv. apply free_vars_In in Hv. apply H; [lia|tauto]. }
  destruct el.
  - destruct I as (LK & RD & fx1 & tn & TD & HT & IV). exists (reduced T OP g tn ts), (erase T OP g tn ts m), (mkSS true fx1 true (ss_model s) (ss_subs s)). destruct TD as [L0 L1 LN FR TE FI S1 S2]. cbn [ss_fix ss_model ss_subs]. cbv zeta.
    split; auto. split; auto. split; auto. split; auto. split; [apply (fb_fix _ _ _ _ (iv_fix _ _ _ _ _ _ _ IV))|]. split; auto. split; auto. split; auto.
    split; [intros _; apply (iv_lock _ _ _ _ _ _ _ IV)|]. do 5 (split; [reflexivity|]). split.
    + intros z HZ HX. exists (tlz T g ts z). rewrite (tent_labels_ok T fin g (flags T g fx1)) by auto. destruct (S1 z HZ HX) as (A & B & D & E). auto 10.
    + intros z HZ HX. destruct (S2 z HZ HX) as (z' & A & B & D & E). exists z'. auto 10.
  - destruct I as [-> IV]. exists g, m, s. cbv zeta. pose proof (iv_fix _ _ _ _ _ _ _ IV) as IF. split; auto. split; auto. split; [apply (fb_len _ _ _ _ IF)|]. split; [apply (fb_len _ _ _ _ IF)|]. split; [apply (fb_fix _ _ _ _ IF)|]. split; auto. split; auto. split; auto.
    split; [|do 5 (split; [reflexivity|]); split].
    + intros MM. destruct IV as [J1 J2 J3 J4 J5]. rewrite J2. apply J4; auto.
    + intros z HZ HX. exists z. split; auto.
    + intros z HZ HX. exists z. split; auto. split; auto. split; auto. apply (al_irrefl _ _ _ AL). apply total_fin'; auto.
Qed.
Lemma labeling_same : forall (gr : gmv T) z, v_labels gr = v_labels g -> (labeling gr z <-> labeling g z).
Proof. intros gr z E. unfold labeling. rewrite E. tauto. Qed.
Lemma labels_of_same : forall (gr : gmv T) vs, v_labels gr = v_labels g -> labels_of gr vs = labels_of g vs.
Proof. intros gr vs E. unfold labels_of. rewrite E. auto. Qed.
Lemma flags_isFixed : forall t fx v, length fx = n -> a_fix (tm_man t) = flags T g fx -> v < n -> (In v (free_vars fx) <-> isFixed T (tm_man t) v = Ret false).
Proof.
  intros t fx v L E Hv. unfold isFixed. rewrite E. rewrite (rd_nth _ _ v true) by (unfold flags; rewrite map_length, seq_length; auto). pose proof (fr_flags T g fx v Hv) as X. unfold fr in X. rewrite free_vars_In. rewrite <- X.
  destruct (nth v (flags T g fx) true); cbn [negb]; split; intros H; try discriminate; [destruct H; discriminate|reflexivity|split; auto; lia].
Qed.

(** C20 with tentacle elimination, the modified model: after every legal history with a model built, its variables are
    some of those that are not fixed; each of its labelings translates to a labeling of the whole model with the fixed
    labels and the same value; and each labeling of the whole model with the fixed labels is at most as good as its
    labels of the variables of the modified model. *)
Theorem C20_tentacle_model : forall ops, tent_ok ops -> exists t, tent_run ops = Ret t /\
  let s := ts_base (tent_state ops) in
  let fx := ss_fix s in
  let gm := a_mgm (tm_man t) in
  exists left_, StronglySorted lt left_ /\ incl left_ (free_vars fx) /\ (forall v, v < n -> (In v left_ <-> isFixed T (tm_man t) v = Ret false)) /\
  (ss_model s = true ->
    s_labels gm = labels_of g left_ /\
    (forall y ol, in_shape (labels_of g left_) y -> exists x gm',
       tent_modifiedState2OriginalState T g t y ol = Ret x /\ labeling g x /\ extends fx x /\ at_vars x left_ = y /\
       sub_evaluate T OP gm y = Ret (gm', total OP g x)) /\
    (forall z, labeling g z -> extends fx z -> in_shape (labels_of g left_) (at_vars z left_) /\ exists gm' e,
       sub_evaluate T OP gm (at_vars z left_) = Ret (gm', e) /\ a_bop ACC (total OP g z) e = false)).
Proof.
  intros ops LG. destruct (trun_ok T OP ACC fin OL AL g W FG solve_rooted solve_free MO HMO SR SF ops _ _ (tinit_ok T OP ACC fin g) LG) as (t & E & I). exists t. split; auto. cbv zeta. fold (tent_state ops) in I.
  destruct (tinv_use _ _ I) as (gr & mr & s1 & VL & IV & L0 & L1 & AF & FR & SM & SS & LK & MG & SB & VS & M2O & S2O & U1 & U2). cbv zeta in *. set (fx := ss_fix (ts_base (tent_state ops))) in *. set (fx1 := ss_fix s1) in *.
  exists (free_vars fx1). split; [apply free_sorted|]. split.
  { intros v Hv. apply free_vars_In in Hv. destruct Hv as [Hv Fv]. rewrite L1 in Hv. pose proof (FR v Hv Fv) as X. apply free_vars_In. split; auto. fold fx in L0. lia. }
  split; [intros v Hv; apply flags_isFixed; auto|]. intros MM. rewrite <- SM in MM. destruct (model_use T OP fin gr FIX s1 mr IV MM) as [LB MU]. fold fx1 in LB, MU. rewrite (labels_of_same gr) in LB, MU by auto. rewrite MG in *.
  cbn [target] in MU. split; auto. split.
  - intros y ol HY. destruct (MU y ol HY) as (z & s' & EZ & LZ & HX & AV & EV). apply (labeling_same gr) in LZ; auto. rewrite M2O in EZ. destruct (U1 z LZ HX) as (x & ET & LX & EX & TX & AX). exists x, s'.
    unfold tent_modifiedState2OriginalState. rewrite (LK MM). assert (LY : length y = length (s_labels (a_mgm (tm_man t)))) by (rewrite LB; apply (Forall2_len _ _ _ _ _ HY)). rewrite LY, Nat.eqb_refl. cbn [andb]. rewrite EZ. cbn [bind]. split; auto. split; auto. split; auto. split; [congruence|]. rewrite TX. auto.
  - intros z HZ HX. assert (IS : in_shape (labels_of g (free_vars fx1)) (at_vars z (free_vars fx1))) by (apply at_shape; auto; intros v Hv; apply free_vars_In in Hv; lia). split; auto.
    destruct (U2 z HZ HX) as (z' & LZ' & EX' & AV & B). destruct (MU _ [] IS) as (x & s' & EZ & LX & EX & AX & EV). apply (labeling_same gr) in LX; auto.
    assert (XZ : x = z').
    { rewrite <- AV in AX. apply (nth_ext _ _ 0 0); [rewrite (labeling_len T g x), (labeling_len T g z'); auto|]. intros v Hv. rewrite (labeling_len T g x) in Hv by auto. destruct (is_free fx1 v) eqn:F.
      - apply (same_label T g (free_vars fx1)); auto. apply free_vars_In. split; auto. lia.
      - destruct (not_free _ _ F) as (l & El). rewrite (extends_nth _ _ _ _ EX El), (extends_nth _ _ _ _ EX' El). auto. }
    subst x. do 2 eexists. split; [exact EV|auto].
Qed.

(** The sub-models: labelings of all of them translate to a labeling of the whole model with the fixed labels, whose
    value is the combination of theirs; and each labeling of the whole model with the fixed labels is at most as good
    as some labelings of the sub-models. *)
Theorem C20_tentacle_submodels : forall ops, tent_ok ops -> ss_subs (ts_base (tent_state ops)) = true -> exists t, tent_run ops = Ret t /\
  let fx := ss_fix (ts_base (tent_state ops)) in
  let subs := a_subs (tm_man t) in
  let fits ys := Forall2 (fun gm y => in_shape (s_labels gm) y) subs ys in
  let values ys es := Forall2 (fun gy e => exists gm', sub_evaluate T OP (fst gy) (snd gy) = Ret (gm', e)) (combine subs ys) es in
  let combined es := fold_left (fun acc e => o_op OP e acc) es (o_neutral OP) in
  (forall ys conf, fits ys -> exists x es, tent_modifiedSubStates2OriginalState T g t ys conf = Ret x /\ labeling g x /\ extends fx x /\ values ys es /\ Forall fin es /\ combined es = total OP g x) /\
  (forall z, labeling g z -> extends fx z -> exists ys es, fits ys /\ values ys es /\ Forall fin es /\ a_bop ACC (total OP g z) (combined es) = false).
Proof.
  intros ops LG SB0. destruct (trun_ok T OP ACC fin OL AL g W FG solve_rooted solve_free MO HMO SR SF ops _ _ (tinit_ok T OP ACC fin g) LG) as (t & E & I). exists t. split; auto. cbv zeta. fold (tent_state ops) in I.
  destruct (tinv_use _ _ I) as (gr & mr & s1 & VL & IV & L0 & L1 & AF & FR & SM & SS & LK & MG & SB & VS & M2O & S2O & U1 & U2). cbv zeta in *. set (fx := ss_fix (ts_base (tent_state ops))) in *. set (fx1 := ss_fix s1) in *. rewrite <- SS in SB0.
  destruct (subs_use T OP fin OL gr FIX s1 mr IV SB0) as (_ & _ & _ & _ & _ & SU). cbv zeta in SU. fold fx1 in SU. rewrite SB in SU. cbn [target] in SU. split.
  - intros ys conf HY. destruct (SU ys conf HY) as (z & es & EZ & LZ & HX & _ & EV & FE & TE). apply (labeling_same gr) in LZ; auto. rewrite S2O in EZ. destruct (U1 z LZ HX) as (x & ET & LX & EX & TX & AX). exists x, es.
    unfold tent_modifiedSubStates2OriginalState. rewrite EZ. cbn [bind]. split; auto. split; auto. split; auto. split; auto. split; auto. rewrite TX. auto.
  - intros z HZ HX. destruct (U2 z HZ HX) as (z' & LZ' & EX' & AV & B). pose proof LZ' as LZr. apply (labeling_same gr) in LZr; auto.
    destruct (subs_onto T OP fin OL gr FIX s1 mr z' [] IV SB0 LZr EX') as (ys & HY & EQ). rewrite SB in HY. destruct (SU ys [] HY) as (z2 & es & EZ & LZ & HX2 & _ & EV & FE & TE). rewrite EQ in EZ. injection EZ as <-. exists ys, es. split; auto. split; auto. split; auto. rewrite TE. auto.
Qed.

(** Minimizing (or maximizing) the modified model solves the whole problem. *)
Theorem C20_tentacle_optimal : forall ops, tent_ok ops -> ss_model (ts_base (tent_state ops)) = true -> exists t, tent_run ops = Ret t /\
  let fx := ss_fix (ts_base (tent_state ops)) in
  let gm := a_mgm (tm_man t) in
  forall y gm1 e ol, in_shape (s_labels gm) y -> sub_evaluate T OP gm y = Ret (gm1, e) ->
    (forall y' gm2 e', in_shape (s_labels gm) y' -> sub_evaluate T OP gm y' = Ret (gm2, e') -> a_bop ACC e' e = false) ->
    exists x, tent_modifiedState2OriginalState T g t y ol = Ret x /\ labeling g x /\ extends fx x /\
      forall z, labeling g z -> extends fx z -> a_bop ACC (total OP g z) (total OP g x) = false.
Proof.
  intros ops LG MM. destruct (C20_tentacle_model ops LG) as (t & E & left_ & _ & _ & _ & H). exists t. split; auto. cbv zeta in *. destruct (H MM) as (LB & H1 & H2). rewrite LB. intros y gm1 e ol HY EV BEST.
  destruct (H1 y ol HY) as (x & gm' & EX & LX & FX & _ & EV'). rewrite EV in EV'. injection EV' as <- ->. exists x. split; auto. split; auto. split; auto. intros z HZ FZ. destruct (H2 z HZ FZ) as (HS & gm2 & e2 & EV2 & B).
  assert (F2 : fin e2). { destruct (H1 _ [] HS) as (x2 & gm3 & _ & LX2 & _ & _ & EV3). rewrite EV2 in EV3. injection EV3 as _ ->. apply total_fin'; auto. }
  apply (al_negtrans _ _ _ AL _ e2); auto using total_fin'. apply (BEST (at_vars z left_) gm2); auto.
Qed.
Lemma combined_mono : forall es es' a a', Forall fin es -> Forall fin es' -> fin a -> fin a' -> a_bop ACC a' a = false -> Forall2 (fun e' e => a_bop ACC e' e = false) es' es ->
  a_bop ACC (fold_left (fun acc e => o_op OP e acc) es' a') (fold_left (fun acc e => o_op OP e acc) es a) = false.
Proof.
  intros es es' a a' F F' FA FA' B H. revert a a' FA FA' B F F'. induction H as [|e' e es' es B1 H IH]; intros a a' FA FA' B F F'; auto. cbn [fold_left]. inversion F; inversion F'; subst. apply IH; auto; try (apply (ol_op _ _ OL); auto).
  apply (al_negtrans _ _ _ AL _ (o_op OP e' a)); try (apply (ol_op _ _ OL); auto); [rewrite (al_mono _ _ _ AL); auto|]. rewrite !(ol_comm _ _ OL _ a) by auto. rewrite (al_mono _ _ _ AL); auto.
Qed.
(** So does minimizing each sub-model. *)
Theorem C20_tentacle_submodels_optimal : forall ops, tent_ok ops -> ss_subs (ts_base (tent_state ops)) = true -> exists t, tent_run ops = Ret t /\
  let fx := ss_fix (ts_base (tent_state ops)) in
  let subs := a_subs (tm_man t) in
  forall ys conf, Forall2 (fun gm y => in_shape (s_labels gm) y) subs ys ->
    (forall i gm y y' gm1 e gm2 e', nth_error subs i = Some gm -> nth_error ys i = Some y -> in_shape (s_labels gm) y' ->
       sub_evaluate T OP gm y = Ret (gm1, e) -> sub_evaluate T OP gm y' = Ret (gm2, e') -> a_bop ACC e' e = false) ->
    exists x, tent_modifiedSubStates2OriginalState T g t ys conf = Ret x /\ labeling g x /\ extends fx x /\
      forall z, labeling g z -> extends fx z -> a_bop ACC (total OP g z) (total OP g x) = false.
Proof.
  intros ops LG SB. destruct (C20_tentacle_submodels ops LG SB) as (t & E & H1 & H2). exists t. split; auto. cbv zeta in *. intros ys conf HY BEST.
  destruct (H1 ys conf HY) as (x & es & EX & LX & FX & EV & FE & CE). exists x. split; auto. split; auto. split; auto. intros z HZ FZ. destruct (H2 z HZ FZ) as (ys' & es' & HY' & EV' & FE' & B).
  assert (FC : forall l a, Forall fin l -> fin a -> fin (fold_left (fun acc e => o_op OP e acc) l a)). { induction l as [|e l IH]; intros a F FA; auto. inversion F; subst. cbn [fold_left]. apply IH; auto. apply (ol_op _ _ OL); auto. }
  apply (al_negtrans _ _ _ AL _ (fold_left (fun acc e => o_op OP e acc) es' (o_neutral OP))); auto using total_fin'; [apply FC; auto; apply (ol_neutral _ _ OL)|]. rewrite <- CE.
  apply combined_mono; auto; try apply (ol_neutral _ _ OL); [apply (al_irrefl _ _ _ AL), (ol_neutral _ _ OL)|].
  pose proof (Forall2_len _ _ _ _ _ HY) as L1. pose proof (Forall2_len _ _ _ _ _ HY') as L2. pose proof (Forall2_len _ _ _ _ _ EV) as L3. pose proof (Forall2_len _ _ _ _ _ EV') as L4. rewrite combine_length in L3, L4.
  apply Forall2_from_nth; [lia|]. intros i e' e Ee' Ee.
  assert (Hi : i < length (a_subs (tm_man t))) by (assert (i < length es) by (apply nth_error_Some; congruence); lia).
  destruct (nth_error_lt _ _ _ Hi) as (gm & EG). destruct (nth_error_lt _ ys i) as (y & EY); [lia|]. destruct (nth_error_lt _ ys' i) as (y' & EY'); [lia|].
  assert (P1 : exists gm1, sub_evaluate T OP gm y = Ret (gm1, e)).
  { destruct (Forall2_nth_l _ _ _ _ _ _ _ EV (nth_error_combine _ _ _ _ _ _ _ EG EY)) as (e1 & Q1 & Q2). rewrite Ee in Q1. injection Q1 as <-. auto. }
  assert (P2 : exists gm2, sub_evaluate T OP gm y' = Ret (gm2, e')).
  { destruct (Forall2_nth_l _ _ _ _ _ _ _ EV' (nth_error_combine _ _ _ _ _ _ _ EG EY')) as (e1 & Q1 & Q2). rewrite Ee' in Q1. injection Q1 as <-. auto. }
  destruct P1 as [gm1 P1], P2 as [gm2 P2]. apply (BEST i gm y y' gm1 e gm2 e'); auto.
  destruct (Forall2_nth_l _ _ _ _ _ _ _ HY' EG) as (y2 & Q1 & Q2). rewrite EY' in Q1. injection Q1 as <-. auto.
Qed.
End S.

(** ** With the solvers of the code *)
Section Pairwise.
Variable T : Type.
Variable OP : oper T.
Variable ACC : accum T.
Variable fin : T -> Prop.
Hypothesis OL : op_laws fin OP.
Hypothesis AL : acc_laws fin OP ACC.
Hypothesis AS : acc_select fin ACC.
Variable g : gmv T.
Hypothesis W : wf_gmv g.
Hypothesis FG : fin_gmv fin g.
Hypothesis SO : order_at_most 2 g.
Variable bp_rooted : gmv T -> nat -> outcome (list T * list (list nat)).
Variable bp_free : gmv T -> outcome (list nat).
Notation run ops := (tent_run T OP g (tent_rooted OP ACC bp_rooted) (tent_free OP ACC bp_free) ops).
Notation ok ops := (tent_ok T OP g (tent_rooted OP ACC bp_rooted) (tent_free OP ACC bp_free) ops).

(** If no factor has more than two variables, the tentacles are solved by dynamic programming: after every legal history,
    optimizing the modified model, or each sub-model, and translating the labels back solves the whole problem with the
    fixed labels. *)
Theorem C20_tentacle_pairwise : forall ops, ok ops -> exists t, run ops = Ret t /\
  let s := ts_base (tent_state T g ops) in
  (ss_model s = true ->
    let gm := a_mgm (tm_man t) in
    forall y gm1 e ol, in_shape (s_labels gm) y -> sub_evaluate T OP gm y = Ret (gm1, e) ->
      (forall y' gm2 e', in_shape (s_labels gm) y' -> sub_evaluate T OP gm y' = Ret (gm2, e') -> a_bop ACC e' e = false) ->
      exists x, tent_modifiedState2OriginalState T g t y ol = Ret x /\ labeling g x /\ extends (ss_fix s) x /\ total OP g x = e /\
        forall z, labeling g z -> extends (ss_fix s) z -> a_bop ACC (total OP g z) (total OP g x) = false) /\
  (ss_subs s = true ->
    let subs := a_subs (tm_man t) in
    forall ys conf, Forall2 (fun gm y => in_shape (s_labels gm) y) subs ys ->
      (forall i gm y y' gm1 e gm2 e', nth_error subs i = Some gm -> nth_error ys i = Some y -> in_shape (s_labels gm) y' ->
         sub_evaluate T OP gm y = Ret (gm1, e) -> sub_evaluate T OP gm y' = Ret (gm2, e') -> a_bop ACC e' e = false) ->
      exists x, tent_modifiedSubStates2OriginalState T g t ys conf = Ret x /\ labeling g x /\ extends (ss_fix s) x /\
        forall z, labeling g z -> extends (ss_fix s) z -> a_bop ACC (total OP g z) (total OP g x) = false).
Proof.
  pose proof (dp_rooted_exact T OP ACC fin OL AL AS bp_rooted) as SR. pose proof (dp_free_exact T OP ACC fin OL AL AS bp_free) as SF. intros ops LG.
  destruct (C20_tentacle_model T OP ACC fin OL AL g W FG _ _ 2 SO SR SF ops LG) as (t & E & left_ & _ & _ & _ & H). exists t. split; auto. cbv zeta in *. split.
  - intros MM y gm1 e ol HY EV BEST. destruct (C20_tentacle_optimal T OP ACC fin OL AL g W FG _ _ 2 SO SR SF ops LG MM) as (t' & E' & B). rewrite E in E'. injection E' as <-. cbv zeta in B.
    destruct (B y gm1 e ol HY EV BEST) as (x & E1 & E2 & E3 & E4). exists x. split; auto. split; auto. split; auto. split; auto. destruct (H MM) as (LB & H1 & _). rewrite LB in HY. destruct (H1 y ol HY) as (x' & gm' & EX & _ & _ & _ & EV').
    rewrite E1 in EX. injection EX as <-. rewrite EV in EV'. congruence.
  - intros SB. destruct (C20_tentacle_submodels_optimal T OP ACC fin OL AL g W FG _ _ 2 SO SR SF ops LG SB) as (t' & E' & B). rewrite E in E'. injection E' as <-. exact B.
Qed.
End Pairwise.
Print Assumptions C20_tentacle_model.
Print Assumptions C20_tentacle_submodels.
Print Assumptions C20_tentacle_optimal.
Print Assumptions C20_tentacle_submodels_optimal.
Print Assumptions C20_tentacle_pairwise.

(** A case: the cycle 0 - 1 - 2 with the tentacle 2 - 3 - 4 and the isolated tentacle 5 - 6; variable 7 is fixed. *)
Definition te_pair (a b : Z) : list nat -> ext := fun l => Fin ((a * Z.of_nat (nth 0 l 0) + b * Z.of_nat (nth 1 l 0) + 2) mod 5).
Definition te_ex : gmv ext := mkGmv [2; 2; 3; 2; 2; 2; 2; 2]
  [ ([0; 1], te_pair 3 1); ([1; 2], te_pair 2 4); ([0; 2], te_pair 1 2); ([2; 3], te_pair 4 3); ([3; 4], te_pair 2 1);
    ([5; 6], te_pair 3 4); ([4; 7], te_pair 1 3); ([6], te_pair 1 0); ([3], te_pair 2 0) ].
Definition te_ops : list tentop := [TOp (OFix 7 1); TElim; TOp OBuild; TOp OBuildSub].
Definition te_none : gmv ext -> nat -> outcome (list ext * list (list nat)) := fun _ _ => Undef.
Definition te_none' : gmv ext -> outcome (list nat) := fun _ => Undef.
Definition te_run (g : gmv ext) (ops : list tentop) : outcome (tman ext) := tent_run ext AdderE g (tent_rooted AdderE MinimizerE te_none) (tent_free AdderE MinimizerE te_none') ops.
Lemma te_legal : tent_ok ext AdderE te_ex (tent_rooted AdderE MinimizerE te_none) (tent_free AdderE MinimizerE te_none') te_ops.
Proof.
  unfold tent_ok, te_ops. cbn [tent_legal_run tent_legal]. split; [cbn; lia|]. intros t1 E1. vm_compute in E1. injection E1 as <-.
  split; [right; intros v Hv; vm_compute in Hv; cbn; lia|]. intros t2 E2. vm_compute in E2. injection E2 as <-.
  split; [reflexivity|]. intros t3 E3. vm_compute in E3. injection E3 as <-. split; [reflexivity|]. intros t4 E4. vm_compute in E4. injection E4 as <-. exact I.
Qed.
Example C20_tentacle_case : wf_gmv te_ex /\ fin_gmv finite te_ex /\ order_at_most 2 te_ex /\
  tent_ok ext AdderE te_ex (tent_rooted AdderE MinimizerE te_none) (tent_free AdderE MinimizerE te_none') te_ops /\
  ss_model (ts_base (tent_state ext te_ex te_ops)) = true /\ ss_subs (ts_base (tent_state ext te_ex te_ops)) = true /\
  (t <- te_run te_ex te_ops ;; Ret (a_fix (tm_man t), a_lab (tm_man t), tm_tents t, s_labels (a_mgm (tm_man t)))) =
    Ret ([false; false; false; true; true; true; true; true], [0; 0; 0; 0; 0; 1; 0; 1],
         [mkTent 2 [Fin 5; Fin 5; Fin 4] [[0; 1; 1]; [1; 0; 0]; [2; 0; 0]] [2; 3; 4]], [2; 2; 3]) /\
  (t <- te_run te_ex te_ops ;; e <- sub_evaluate ext AdderE (a_mgm (tm_man t)) [1; 0; 0] ;; x <- tent_modifiedState2OriginalState ext te_ex t [1; 0; 0] [0; 0; 0; 0; 0; 0; 0; 0] ;;
   Ret (snd e, x, total AdderE te_ex x)) = Ret (Fin 12, [1; 0; 0; 1; 1; 1; 0; 1], Fin 12).
Proof.
  split; [split; cbn; repeat constructor; cbn; lia|]. split; [unfold fin_gmv, te_ex; cbn [v_factors]; repeat (apply Forall_cons; [intros; eexists; reflexivity|]); apply Forall_nil|].
  split; [unfold order_at_most, te_ex; cbn [v_factors]; repeat (apply Forall_cons; [cbn; lia|]); apply Forall_nil|]. split; [apply te_legal|]. split; [reflexivity|]. split; [reflexivity|]. split; vm_compute; reflexivity.
Qed.

(** pushed2Leafs has an entry for each factor, but is indexed by variables: three variables and two factors are enough
    for a write behind its end. *)
Definition te_chain : gmv ext := mkGmv [2; 2; 2] [ ([0; 1], te_pair 3 1); ([1; 2], te_pair 2 4) ].
Theorem C20_tentacle_leafs_refuted : exists g : gmv ext, wf_gmv g /\ fin_gmv finite g /\ order_at_most 2 g /\ te_run g [TElim] = Undef /\ te_run g [TOp OLock; TOp OBuild] <> Undef.
Proof.
  exists te_chain. split; [split; cbn; repeat constructor; cbn; lia|]. split; [unfold fin_gmv, te_chain; cbn [v_factors]; repeat (apply Forall_cons; [intros; eexists; reflexivity|]); apply Forall_nil|].
  split; [unfold order_at_most, te_chain; cbn [v_factors]; repeat (apply Forall_cons; [cbn; lia|]); apply Forall_nil|]. split; [vm_compute; reflexivity|]. vm_compute. discriminate.
Qed.
(** unlock() frees all variables but keeps the tentacles: translating the labels of a model that is built afterwards changes
    the label of a variable that has been fixed, and the value of the model is not that of the labels with the fixed one. *)
Theorem C20_tentacle_unlock_refuted : exists g : gmv ext, wf_gmv g /\ fin_gmv finite g /\ order_at_most 2 g /\ exists t y e x,
  te_run g [TElim; TOp OUnlock; TOp (OFix 4 1); TOp OLock; TOp OBuild] = Ret t /\ a_fix (tm_man t) = [false; false; false; false; true; false; false; false] /\
  sub_evaluate ext AdderE (a_mgm (tm_man t)) y = Ret (a_mgm (tm_man t), e) /\
  tent_modifiedState2OriginalState ext g t y (repeat 0 8) = Ret x /\ nth 4 x 0 = 0 /\ e <> total AdderE g (firstn 4 y ++ 1 :: skipn 4 y).
Proof.
  exists te_ex. split; [apply C20_tentacle_case|]. split; [apply C20_tentacle_case|]. split; [apply C20_tentacle_case|].
  destruct (te_run te_ex [TElim; TOp OUnlock; TOp (OFix 4 1); TOp OLock; TOp OBuild]) as [t| | |] eqn:R; [|vm_compute in R; discriminate R..].
  exists t, [1; 1; 1; 1; 1; 1; 0]. vm_compute in R. injection R as <-. do 2 eexists. split; [reflexivity|]. split; [reflexivity|].
  split; [vm_compute; reflexivity|]. split; [vm_compute; reflexivity|]. split; vm_compute; [reflexivity|discriminate].
Qed.
Print Assumptions C20_tentacle_leafs_refuted.
Print Assumptions C20_tentacle_unlock_refuted.
