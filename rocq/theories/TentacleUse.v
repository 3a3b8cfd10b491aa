(** Proofs for tentacle elimination: histories of calls. *)
From Coq Require Import Sorted Relations Permutation Relation_Operators.
From Verif Require Import Base Values GmView GmViewSpec GmViewProofs ShapeSpec UtilModel FunctionViewsModel MovemakerModel MovemakerSpec FactorGraphModel FactorGraphSpec SubmodelModel SubmodelProps ManipulatorModel ManipulatorSpec ManipulatorRep ManipulatorExpand MpModel MpSpec DecompForest GmProofs IcmProofs DpProofs ManipulatorProofs ManipulatorSubs ManipulatorProps TentacleModel TentacleSpec TentacleUseSpec TentaclePeel TentacleTree TentacleComp TentacleGmt TentacleRun TentacleElim TentacleLoop TentacleLock TentacleSim.
#[local] Arguments nth_error : simpl never.

Section S.
Variable T : Type.
Variable OP : oper T.
Variable ACC : accum T.
Variable fin : T -> Prop.
Hypothesis OL : op_laws fin OP.
Hypothesis AL : acc_laws fin OP ACC.
Variable g : gmv T.
Hypothesis W : wf_gmv g.
Hypothesis FG : fin_gmv fin g.
Variable solve_rooted : gmv T -> nat -> outcome (list T * list (list nat)).
Variable solve_free : gmv T -> outcome (list nat).
Variable MO : nat.
Hypothesis HMO : order_at_most MO g.
Hypothesis SR : rooted_exact fin OP ACC MO solve_rooted.
Hypothesis SF : free_exact fin OP ACC MO solve_free.
Notation n := (length (v_labels g)).
Notation nf := (length (v_factors g)).
Notation lab v := (nth v (v_labels g) 0).
Notation tstep := (tstep T OP g FIX solve_rooted solve_free).

(** ** From lists of flags to fixed labels *)
Definition flags (fx : fixes) : list bool := map (fun v => negb (is_free fx v)) (seq 0 n).
Lemma fr_flags : forall fx v, v < n -> fr (flags fx) v = is_free fx v.
Proof. intros fx v H. unfold fr, flags. rewrite (nth_indep _ true (negb (is_free fx 0))) by (rewrite map_length, seq_length; auto). rewrite (map_nth (fun v => negb (is_free fx v))), seq_nth by auto. apply negb_involutive. Qed.
Lemma fr_flags_out : forall fx v, fr (flags fx) v = true -> v < n.
Proof. intros fx v H. destruct (Nat.lt_ge_cases v n); auto. unfold fr in H. rewrite nth_overflow in H by (unfold flags; rewrite map_length, seq_length; auto). discriminate. Qed.
Lemma agrees_extends : forall fx lb z, length fx = n -> length z = n -> (forall v l, nth v fx None = Some l -> nth v lb 0 = l) -> (agrees T g (flags fx) lb z <-> extends fx z).
Proof.
  intros fx lb z LF LZ HL. split; intros H.
  - apply extends_intro; [lia|]. intros v l E. assert (Hv : v < n) by (rewrite <- LF; destruct (Nat.lt_ge_cases v (length fx)); auto; rewrite nth_overflow in E by auto; discriminate).
    rewrite <- (HL v l E). apply H; auto. rewrite fr_flags by auto. unfold is_free. rewrite E. auto.
  - intros v Hv F. rewrite fr_flags in F by auto. destruct (not_free _ _ F) as (l & E). rewrite (HL v l E). apply (extends_nth fx); auto.
Qed.
Definition fixes_of (fx : list bool) (lb : list nat) : fixes := map (fun v => if nth v fx true then Some (nth v lb 0) else None) (seq 0 n).
Lemma nth_fixes : forall fx lb v, nth v (fixes_of fx lb) None = if v <? n then if nth v fx true then Some (nth v lb 0) else None else None.
Proof.
  intros fx lb v. unfold fixes_of. destruct (Nat.ltb_spec v n) as [L|L].
  - set (h := fun v => if nth v fx true then Some (nth v lb 0) else None). rewrite (nth_indep _ None (h 0)) by (rewrite map_length, seq_length; auto). rewrite map_nth, seq_nth by auto. auto.
  - apply nth_overflow. rewrite map_length, seq_length. auto.
Qed.
Lemma fixes_len : forall fx lb, length (fixes_of fx lb) = n.
Proof. intros. unfold fixes_of. rewrite map_length, seq_length. auto. Qed.
Lemma free_fixes : forall fx lb v, v < n -> is_free (fixes_of fx lb) v = fr fx v.
Proof. intros fx lb v H. unfold is_free. rewrite nth_fixes. apply Nat.ltb_lt in H. rewrite H. unfold fr. destruct (nth v fx true); auto. Qed.
Lemma flags_fixes : forall fx lb, length fx = n -> flags (fixes_of fx lb) = fx.
Proof.
  intros fx lb L. apply (nth_ext _ _ true true); [unfold flags; rewrite map_length, seq_length; auto|]. intros v Hv. unfold flags in Hv. rewrite map_length, seq_length in Hv.
  pose proof (fr_flags (fixes_of fx lb) v Hv) as H. rewrite free_fixes in H by auto. unfold fr in H. destruct (nth v (flags (fixes_of fx lb)) true), (nth v fx true); auto; discriminate.
Qed.

(** ** After the elimination *)
Record tdone (fx0 fx1 : fixes) (tn : list bool) (ts : list (tent T)) : Prop := {
  td_len0 : length fx0 = n; td_len : length fx1 = n; td_ln : length tn = nf;
  td_free : forall v, v < n -> is_free fx1 v = true -> is_free fx0 v = true;
  td_tent : forall k u v, nth k tn false = true -> In u (vars T g k) -> In v (vars T g k) -> is_free fx1 u = true -> is_free fx1 v = true -> u = v;
  td_fits : Forall (tent_fits T fin g (flags fx1)) ts;
  td_s1 : forall z, labeling g z -> extends fx1 z -> let x := tlz T g ts z in
     labeling g x /\ extends fx0 x /\ total OP g x = total OP (reduced T OP g tn ts) z /\ (forall v, v < n -> is_free fx1 v = true -> nth v x 0 = nth v z 0);
  td_s2 : forall z, labeling g z -> extends fx0 z -> exists z', labeling g z' /\ extends fx1 z' /\ (forall v, v < n -> is_free fx1 v = true -> nth v z' 0 = nth v z 0) /\
     a_bop ACC (total OP g z) (total OP (reduced T OP g tn ts) z') = false }.
Lemma labeling_len : forall z, labeling g z -> length z = n.
Proof. intros z H. apply (Forall2_len _ _ _ _ _ H). Qed.

Lemma elim_ok : forall s m, inv T OP fin g FIX s m -> ss_locked s = false -> (forall v, In v (free_vars (ss_fix s)) -> v < nf) ->
  exists t fx1 tn ts, lockAndTentacelElimination T g FIX solve_rooted solve_free (mkTman m []) = Ret t /\ tdone (ss_fix s) fx1 tn ts /\ tm_tents t = ts /\ a_tent (tm_man t) = tn /\
    inv T OP fin (reduced T OP g tn ts) FIX (mkSS true fx1 true (ss_model s) (ss_subs s)) (erase T OP g tn ts (tm_man t)).
Proof.
  intros s m [IF IL IT IM IS] LK HB. destruct IF as [L O F LL LB V].
  assert (EF : a_fix m = flags (ss_fix s)) by exact F. set (fx0 := ss_fix s) in *.
  assert (LF0 : length (flags fx0) = n) by (unfold flags; rewrite map_length, seq_length; auto).
  assert (LB0 : forall v, v < n -> fr (flags fx0) v = false -> nth v (a_lab m) 0 < lab v).
  { intros v Hv X. rewrite fr_flags in X by auto. destruct (not_free _ _ X) as (l & E). rewrite (LB v l E). apply O. auto. }
  assert (HB' : forall v, fr (flags fx0) v = true -> v < nf).
  { intros v X. pose proof (fr_flags_out _ _ X) as Hv. rewrite fr_flags in X by auto. apply HB. apply free_vars_In. split; auto. lia. }
  assert (ET : firstn nf (a_tent m) ++ repeat false (nf - length (a_tent m)) = repeat false nf).
  { rewrite IT. destruct (ss_ready s).
    - rewrite repeat_length, Nat.sub_diag. cbn [repeat]. rewrite app_nil_r. rewrite <- (repeat_length false nf) at 1. apply firstn_all.
    - rewrite firstn_nil. cbn [length app]. rewrite Nat.sub_0_r. auto. }
  rewrite LK in IL. destruct (elimination_ok T OP ACC fin OL AL g W FG solve_rooted solve_free MO HMO SR SF (flags fx0) (a_lab m) LF0 LL LB0 HB' m IL EF eq_refl ET) as (fx & lb & tn & ts & E & [E1 E2 E3 E4 E5 E6 E7 E8 E9]).
  exists (mkTman (mkMan true fx lb tn (a_mgm m) (a_subs m) (a_v2s m)) ts), (fixes_of fx lb), tn, ts. cbn [tm_tents tm_man a_tent]. split; auto.
  pose proof (flags_fixes fx lb E1) as FF. pose proof (fixes_len fx lb) as FL.
  assert (AE : forall z, labeling g z -> (agrees T g fx lb z <-> extends (fixes_of fx lb) z)).
  { intros z HZ. rewrite <- (flags_fixes fx lb E1) at 1. apply agrees_extends; auto. { apply labeling_len; auto. } intros v l X. rewrite nth_fixes in X. destruct (v <? n); [|discriminate]. destruct (nth v fx true); [injection X as <-; auto|discriminate]. }
  assert (AE0 : forall z, labeling g z -> (agrees T g (flags fx0) (a_lab m) z <-> extends fx0 z)) by (intros z HZ; apply agrees_extends; auto; apply labeling_len; auto).
  split; [|split; [|split]]; auto.
  - constructor; auto.
    + intros v Hv X. rewrite free_fixes in X by auto. rewrite <- fr_flags by auto. apply E4. auto.
    + intros k u v K Iu Iv Fu Fv. pose proof (vars_lt T g W k u Iu) as [Lu _]. pose proof (vars_lt T g W k v Iv) as [Lv _]. rewrite free_fixes in Fu, Fv by auto. eapply E6; eauto.
    + rewrite FF. auto.
    + intros z HZ HX. apply AE in HX; auto. destruct (E8 z HZ HX) as (A & B & D & G). cbv zeta. split; auto. split; [apply AE0; auto|]. split; auto. intros v Hv X. rewrite free_fixes in X by auto. auto.
    + intros z HZ HX. apply AE0 in HX; auto. destruct (E9 z HZ HX) as (z' & A & B & D & G). exists z'. split; auto. split; [apply AE; auto|]. split; auto. intros v Hv X. rewrite free_fixes in X by auto. auto.
  - constructor; cbn [ss_fix ss_locked ss_ready ss_model ss_subs erase a_locked a_tent a_mgm a_subs a_v2s]; auto; [|intros X; destruct (IM X); congruence|intros X; destruct (IS X); congruence].
    constructor; cbn [erase a_fix a_lab a_v2s reduced v_labels]; auto.
    + intros v l X. rewrite nth_fixes in X. destruct (Nat.ltb_spec v n) as [Hv|]; [|discriminate]. destruct (nth v fx true) eqn:Q; [|discriminate]. injection X as <-. apply E5; auto. unfold fr. rewrite Q. auto.
    + intros v l X. rewrite nth_fixes in X. destruct (v <? n); [|discriminate]. destruct (nth v fx true); [injection X as <-; auto|discriminate].
Qed.

(** ** One call *)
Definition tinv (s : tstate) (t : tman T) : Prop :=
  if ts_elim s then
    ss_locked (ts_base s) = true /\ ss_ready (ts_base s) = true /\
    exists fx1 tn, tdone (ss_fix (ts_base s)) fx1 tn (tm_tents t) /\ a_tent (tm_man t) = tn /\
      inv T OP fin (reduced T OP g tn (tm_tents t)) FIX (mkSS true fx1 true (ss_model (ts_base s)) (ss_subs (ts_base s))) (erase T OP g tn (tm_tents t) (tm_man t))
  else tm_tents t = [] /\ inv T OP fin g FIX (ts_base s) (tm_man t).

Lemma base_step : forall m o, tstep (mkTman m []) (TOp o) = (m' <- mstep T OP g FIX m o ;; Ret (mkTman m' [])).
Proof. intros m o. destruct o; reflexivity. Qed.
Lemma fits_root : forall fx ts t, length fx = n -> Forall (tent_fits T fin g (flags fx)) ts -> In t ts -> t_root t < n /\ nth_error (flags fx) (t_root t) = Some false.
Proof.
  intros fx ts t L H It. rewrite Forall_forall in H. destruct (H t It) as [(RL & _) FR _ _ _ _ _]. split; auto. unfold fr in FR. apply negb_true_iff in FR. rewrite <- FR. apply nth_error_nth'. unfold flags. rewrite map_length, seq_length. auto.
Qed.

(** The calls that do not build a model work alike for the reduced model. *)
Lemma plain_step : forall tn ts m o m1, length tn = nf -> a_tent m = tn -> a_locked m = true ->
  match o with OUnlock | OBuild | OBuildSub => False | _ => True end ->
  mstep T OP (reduced T OP g tn ts) FIX (erase T OP g tn ts m) o = Ret m1 ->
  exists m', mstep T OP g FIX m o = Ret m' /\ erase T OP g tn ts m' = m1 /\ a_tent m' = tn.
Proof.
  intros tn ts m o m1 LN HT LK OK E. destruct o as [v l|v| | | | | |y|i y]; try destruct OK; cbn [mstep] in *.
  - unfold fixVariable in *. cbn [erase a_locked] in E. rewrite LK in *. exists m. injection E as <-. unfold erase. rewrite LK. auto.
  - unfold freeVariable in *. cbn [erase a_locked] in E. rewrite LK in *. exists m. injection E as <-. unfold erase. rewrite LK. auto.
  - unfold freeAllVariables in *. cbn [erase a_locked] in E. rewrite LK in *. exists m. injection E as <-. unfold erase. rewrite LK. auto.
  - unfold lock in *. injection E as <-. eexists. split; [reflexivity|]. cbn [erase a_locked a_fix a_lab a_tent a_mgm a_subs a_v2s]. split.
    + unfold erase. cbn [a_locked a_fix a_lab a_tent a_mgm a_subs a_v2s]. f_equal. rewrite repeat_length, Nat.sub_diag. cbn [repeat]. rewrite app_nil_r. symmetry. apply firstn_all2. rewrite repeat_length. auto.
    + rewrite HT, LN, Nat.sub_diag. cbn [repeat]. rewrite app_nil_r. rewrite <- LN. apply firstn_all.
  - cbn [erase a_mgm] in E. destruct (sub_evaluate T OP (a_mgm m) y) as [r| | |]; try discriminate. cbn [bind] in *. injection E as <-. eexists. split; [reflexivity|]. auto.
  - cbn [erase a_subs] in E. destruct (rd (a_subs m) i) as [b| | |]; try discriminate. cbn [bind] in *. destruct (sub_evaluate T OP b y) as [r| | |]; try discriminate. cbn [bind] in *. destruct (wr (a_subs m) i (fst r)) as [ss| | |]; try discriminate. cbn [bind] in *. injection E as <-. eexists. split; [reflexivity|]. auto.
Qed.

Lemma tstep_ok : forall s t o, tinv s t -> tent_legal g s t o -> exists t', tstep t o = Ret t' /\ tinv (tsstep s o) t'.
Proof.
  intros [s el] [m ts] o I LG. unfold tinv in I. cbn [ts_elim ts_base tm_tents tm_man] in I. destruct el.
  - destruct I as (LK & RD & fx1 & tn & TD & HT & IV). destruct o as [o|].
    + (* a call after the elimination *)
      pose proof IV as [IF IL _ _ _]. cbn [erase a_locked ss_locked] in IL.
      pose proof (fb_fix _ _ _ _ IF) as AF. cbn [erase a_fix ss_fix reduced v_labels] in AF. fold (flags fx1) in AF.
      pose proof (fb_v2s _ _ _ _ IF) as LV. cbn [erase a_v2s reduced v_labels] in LV.
      pose proof (td_ln _ _ _ _ TD) as LN. pose proof (td_len _ _ _ _ TD) as L1.
      assert (GOK : Forall (root_ok T fin g) ts) by (eapply Forall_impl; [|apply (td_fits _ _ _ _ TD)]; intros t X; apply (tf_ok _ _ _ _ _ X)).
      pose proof (reduced_wf T OP fin g W tn ts GOK) as W'. pose proof (reduced_fin T OP fin g FG tn ts GOK) as FG'.
      assert (HR : forall t, In t ts -> t_root t < n /\ nth_error (a_fix m) (t_root t) = Some false) by (intros t It; rewrite AF; apply (fits_root fx1 ts); auto; apply TD).
      assert (PL : match o with OUnlock | OBuild | OBuildSub => False | _ => True end -> exists t', tstep (mkTman m ts) (TOp o) = Ret t' /\ tinv (tsstep (mkTS s true) (TOp o)) t').
      { intros OK. assert (LG' : man_legal (reduced T OP g tn ts) (mkSS true fx1 true (ss_model s) (ss_subs s)) (erase T OP g tn ts m) o) by (destruct o; cbn [tent_legal ts_base tm_man man_legal erase a_mgm a_subs ss_model ss_subs reduced v_labels] in *; auto; destruct OK).
        destruct (step_ok T OP fin OL _ W' FG' FIX _ _ o IV LG') as (m1 & E1 & I1). destruct (plain_step tn ts m o m1 LN HT IL OK E1) as (m' & E & EM & HT').
        exists (mkTman m' ts). split. { destruct o; try destruct OK; cbn [TentacleModel.tstep tm_man tm_tents]; rewrite E; auto. }
        unfold tinv. cbn [tsstep ts_elim ts_base tm_tents tm_man]. rewrite <- EM in I1.
        assert (SS : sstep (mkSS true fx1 true (ss_model s) (ss_subs s)) o = mkSS true fx1 true (ss_model s) (ss_subs s) /\ ss_locked (sstep s o) = true /\ ss_ready (sstep s o) = true /\ ss_fix (sstep s o) = ss_fix s /\ ss_model (sstep s o) = ss_model s /\ ss_subs (sstep s o) = ss_subs s).
        { destruct o; try destruct OK; cbn [sstep ss_locked ss_ready ss_fix ss_model ss_subs]; rewrite ?LK; auto 10. }
        destruct SS as (S1 & S2 & S3 & S4 & S5 & S6). rewrite S1 in I1. split; auto. split; auto. exists fx1, tn. rewrite S4, S5, S6. auto. }
      destruct o as [v l|v| | | | | |y|i y]; try (apply PL; exact Logic.I; fail).
      * discriminate LG.
      * (* buildModifiedModel *)
        destruct (build_ok T OP fin OL _ W' FG' FIX fx1 _ IF eq_refl) as (b & E & M). cbn [erase a_fix a_lab a_tent a_subs a_v2s] in E. fold (erase T OP g tn ts m) in E.
        pose proof (model_sim T OP g tn ts LN m HT HR LV b E) as E'. exists (mkTman (mkMan true (a_fix m) (a_lab m) tn b (a_subs m) (a_v2s m)) ts). split. { cbn [TentacleModel.tstep tm_man tm_tents]. rewrite E'. auto. }
        unfold tinv. cbn [tsstep sstep ts_elim ts_base tm_tents tm_man ss_locked ss_ready ss_fix ss_model ss_subs]. split; auto. split; auto. exists fx1, tn. split; auto. split; auto.
        destruct IV as [J1 J2 J3 J4 J5]. constructor; cbn [erase ss_fix ss_locked ss_ready ss_model ss_subs a_locked a_tent a_mgm a_subs a_v2s] in *; auto. destruct J1; constructor; auto.
      * (* buildModifiedSubModels *)
        destruct (components_ok T g W fx1 L1 m AF LV) as (v2s & k & EC & LV' & C1 & C2 & C3).
        assert (JS : forall u v, is_free fx1 u = true -> (joined g fx1 u v <-> joined (reduced T OP g tn ts) fx1 u v)) by (apply (joined_same T OP g tn ts LN fx1); apply (td_tent _ _ _ _ TD)).
        destruct (sub_models_ok T OP fin OL _ W' FG' FIX fx1 _ v2s k IF eq_refl LV' C1) as (ss & E & M).
        { intros u v Fu Fv. rewrite <- JS by apply Fu. apply C2; auto. }
        { exact C3. }
        cbn [erase a_fix a_lab a_tent a_mgm a_subs a_v2s] in E. fold (erase T OP g tn ts m) in E. pose proof (subs_sim T OP g tn ts LN m HT HR v2s k LV' ss E) as E'.
        exists (mkTman (mkMan true (a_fix m) (a_lab m) tn (a_mgm m) ss v2s) ts). split. { cbn [TentacleModel.tstep tm_man tm_tents]. unfold tent_submodels. rewrite EC. cbn [bind]. rewrite E'. auto. }
        unfold tinv. cbn [tsstep sstep ts_elim ts_base tm_tents tm_man ss_locked ss_ready ss_fix ss_model ss_subs]. split; auto. split; auto. exists fx1, tn. split; auto. split; auto.
        destruct IV as [J1 J2 J3 J4 J5]. constructor; cbn [erase ss_fix ss_locked ss_ready ss_model ss_subs a_locked a_tent a_mgm a_subs a_v2s] in *; auto. destruct J1; constructor; auto.
    + (* a second elimination *)
      exists (mkTman m ts). pose proof (iv_lock _ _ _ _ _ _ _ IV) as IL. cbn [erase a_locked ss_locked] in IL. split. { cbn [TentacleModel.tstep]. unfold lockAndTentacelElimination. cbn [tm_man]. rewrite IL. auto. }
      cbn [tsstep ts_base]. rewrite LK. unfold tinv. cbn [ts_elim ts_base tm_tents tm_man]. split; auto. split; auto. exists fx1, tn. auto.
  - destruct I as [-> IV]. destruct o as [o|].
    + assert (LG' : man_legal g s m o) by (destruct o; cbn [tent_legal ts_base tm_man man_legal] in *; auto). destruct (step_ok T OP fin OL g W FG FIX s m o IV LG') as (m' & E & I'). exists (mkTman m' []). rewrite base_step, E. split; auto. split; auto.
    + pose proof (iv_lock _ _ _ _ _ _ _ IV) as IL. cbn [tsstep ts_base]. destruct (ss_locked s) eqn:LK.
      * exists (mkTman m []). split; [|split; auto]. cbn [TentacleModel.tstep]. unfold lockAndTentacelElimination. cbn [tm_man]. rewrite IL. auto.
      * cbn [tent_legal ts_base] in LG. destruct LG as [LG|LG]; [congruence|]. destruct (elim_ok s m IV LK LG) as (t & fx1 & tn & ts & E & TD & ET & EN & IV'). exists t. split; auto. unfold tinv. cbn [ts_elim ts_base ss_locked ss_ready ss_fix ss_model ss_subs]. split; auto. split; auto. rewrite ET. exists fx1, tn. auto.
Qed.
Lemma trun_ok : forall ops s t, tinv s t -> tent_legal_run g OP solve_rooted solve_free s t ops -> exists t', foldM tstep ops t = Ret t' /\ tinv (fold_left tsstep ops s) t'.
Proof.
  induction ops as [|o ops IH]; intros s t I LG; [exists t; auto|]. destruct LG as [L1 L2]. destruct (tstep_ok s t o I L1) as (t1 & E & I1). cbn [foldM fold_left]. rewrite E. cbn [bind]. apply IH; auto.
Qed.
Lemma tinit_ok : tinv (ts_new n) (tent_new T g).
Proof. split; auto. apply ManipulatorProps.init_ok. Qed.
End S.
