(** DMC: decomposition of a multicut problem along its repulsive factors. *)
From Coq Require Import QArith Qcanon Sorted.
From Verif Require Import Base Values GmView GmViewSpec ShapeSpec ShapeProofs GmViewProofs GmViewProps FuseMoves PartitionModel PartitionProofs ConstraintModel DualDecompModel FmProps DmcModel DmcSpec DmcProofs DmcSub DmcRun.
From Verif Require RedInfer.
Open Scope nat_scope.

Lemma multicut_wf : forall gm, multicut gm -> wf_gmv gm.
Proof.
  intros gm [M1 M2]. split.
  - eapply Forall_impl; [|exact M2]. intros fc (i & j & a & b & E & L & _). rewrite E. split; [repeat constructor; lia|repeat constructor; lia].
  - unfold positive. rewrite M1. apply Forall_forall. intros x I. pose proof (repeat_spec _ _ _ I) as ->. destruct (length (v_labels gm)); [destruct I|lia].
Qed.
Section Props.
Variables (gm : gmv Qc) (solve : gmv Qc -> outcome (list nat)) (threshold : Qc).
Hypothesis MC : multicut gm.
Hypothesis SL : dm_labels solve.
Notation n := (length (v_labels gm)).
Lemma run_ok : forall arg, length arg = n -> exists r, dm_infer gm solve threshold arg = Ret r /\ labeling gm r /\ (dm_exact solve -> no_gap threshold gm -> no_parallel gm -> optimal AdderQ MinimizerQ gm r).
Proof.
  intros arg LA. destruct (decompose_ok gm threshold MC) as (p & pairs & ED & PI & JO). unfold dm_infer. rewrite ED. cbn [bind]. pose proof (multicut_wf gm MC) as W.
  destruct (Nat.eqb_spec (numberOfSets p) 1) as [E1|E1].
  - destruct (SL gm MC) as (r & ES & LR). rewrite ES. cbn [bind]. rewrite (v_evaluate_total Qc AdderQ gm r W (labeling_length Qc gm r LR)). cbn [bind]. exists r. split; [reflexivity|]. split; [exact LR|]. intros EX _ _. exact (EX gm r MC ES).
  - destruct (part_representativeLabeling_spec p n pairs PI) as (repr & ER & _). rewrite ER. cbn [bind].
    destruct (subVar_ok gm p pairs repr PI ER) as (q & EV & AQ). rewrite EV. cbn [bind]. destruct (mark_ok gm MC p pairs repr PI ER q AQ) as (q' & used & EM & LU & HU). rewrite EM. cbn [bind].
    set (cp := comp p repr) in *. assert (CL : forall v, v < n -> cp v < numberOfSets p) by (apply (comp_lt gm p pairs repr PI ER)).
    destruct (loop_ok gm solve MC SL cp (numberOfSets p) CL arg used (repeat (S n) n) LA LU (repeat_length _ _)) as (r & u & g & o & EL & LR & DI & GO).
    { intros f Hf. rewrite HU by exact Hf. unfold cross. fold cp. split; [intros X; apply negb_true_iff, Nat.eqb_neq; exact X|]. intros X _. apply negb_false_iff, Nat.eqb_eq. exact X. }
    change (map (cls gm p repr) (seq 0 (numberOfSets p))) with (map (scls gm cp) (seq 0 (numberOfSets p))). rewrite EL. cbn [bind]. rewrite (v_evaluate_total Qc AdderQ gm r W (labeling_length Qc gm r LR)). cbn [bind].
    exists r. split; [reflexivity|]. split; [exact LR|]. intros EX [NG1 NG2] NP. split; [exact LR|]. intros y LY. apply GmViewProps.qlt_false. rewrite Forall_forall in NG2.
    apply (whole gm solve MC cp (numberOfSets p) CL r y LR LY DI GO EX).
    + intros k Hk LK f Hf IN. unfold inside in IN. apply andb_true_iff in IN. rewrite !Nat.eqb_eq in IN. destruct (fac_ok gm MC f Hf) as (EF & L & _).
      assert (A : In (ia gm f) (scls gm cp k)) by (apply scls_In; lia). assert (B : In (ja gm f) (scls gm cp k)) by (apply scls_In; lia).
      destruct (pair_joined gm threshold MC p pairs repr PI JO ER (ia gm f) (ja gm f) L) as (f' & Hf' & Q & I1 & I2).
      * fold cp. lia.
      * intros v Hv C. fold cp in C. assert (I : In v (scls gm cp k)) by (apply scls_In; lia). destruct (scls gm cp k) as [|a [|b [|]]]; try discriminate LK. cbn [In] in *. intuition lia.
      * assert (f' = f).
        { destruct (fac_ok gm MC f' Hf') as (EF' & _). apply (proj1 (NoDup_nth _ []) NP); [rewrite map_length; exact Hf'|rewrite map_length; exact Hf|].
          change (@nil nat) with (fst dflt). rewrite !map_nth. change (nth f' (v_factors gm) dflt) with (fac gm f'). change (nth f (v_factors gm) dflt) with (fac gm f). congruence. }
        subst f'. destruct (NG2 (fac gm f)) as [X|X]; [apply nth_In; exact Hf| |exact X]. exfalso. exact (Qcle_not_lt _ _ X Q).
    + intros f Hf NE. destruct (Qclt_le_dec threshold (wt gm f)) as [Q|Q]; [destruct (NE (heavy_same gm threshold MC p pairs repr PI JO ER f Hf Q))|]. eapply Qcle_trans; [exact Q|exact NG1].
Qed.
(** C67.  For every multicut problem and every inference that returns labelings infer() succeeds, and arg() is a labeling. *)
Theorem C67_runs : exists r, dm_infer gm solve threshold (dm_new gm) = Ret r /\ dm_arg gm r = Ret r /\ labeling gm r.
Proof.
  destruct (run_ok (dm_new gm) (repeat_length _ _)) as (r & E & L & _). exists r. split; [exact E|]. split; [|exact L]. unfold dm_arg. rewrite (FuseMoves.mapM_Ret _ (fun v => nth v r 0)); [f_equal; rewrite <- (labeling_length Qc gm r L); apply map_nth_seq|].
  intros v I. apply in_seq in I. apply FuseMoves.rd_nth. rewrite (labeling_length Qc gm r L). lia.
Qed.
(** If the inference is exact, there are no parallel factors, and no weight is negative but beyond the threshold, then arg() is optimal. *)
Theorem C67_optimal : dm_exact solve -> no_gap threshold gm -> no_parallel gm -> exists r, dm_infer gm solve threshold (dm_new gm) = Ret r /\ dm_arg gm r = Ret r /\ optimal AdderQ MinimizerQ gm r.
Proof.
  intros EX NG NP. destruct (run_ok (dm_new gm) (repeat_length _ _)) as (r & E & L & O). destruct C67_runs as (r' & E' & A & _). rewrite E in E'. injection E' as <-. exists r. auto.
Qed.
End Props.
Print Assumptions C67_runs.
Print Assumptions C67_optimal.

(** A factor that does not have two variables makes infer() throw. *)
Theorem C67_order : forall gm solve threshold arg, wf_gmv gm -> Forall (fun k => 2 <= k) (v_labels gm) -> Exists (fun fc => length (fst fc) <> 2) (v_factors gm) -> dm_infer gm solve threshold arg = Throw.
Proof.
  intros gm solve threshold arg [W _] L2 EX. unfold dm_infer. replace (dm_decompose gm threshold) with (@Throw partition); [reflexivity|]. symmetry. unfold dm_decompose.
  set (n := length (v_labels gm)) in *. assert (X : forall rest pre p pairs, v_factors gm = pre ++ rest -> PInv p n pairs -> Exists (fun fc => length (fst fc) <> 2) rest ->
    foldM (fun ufd fi => fc <- rd (v_factors gm) fi ;; if length (fst fc) =? 2 then weight <- dm_weight gm fc ;; if Qc_lt threshold weight then vi0 <- rd (fst fc) 0 ;; vi1 <- rd (fst fc) 1 ;; part_merge ufd vi0 vi1 else Ret ufd else Throw)
      (seq (length pre) (length rest)) p = Throw).
  { induction rest as [|fc rest IH]; intros pre p pairs E PI EXr; [inversion EXr|]. cbn [length seq foldM].
    assert (RD : rd (v_factors gm) (length pre) = Ret fc). { rewrite (Base.rd_nth _ _ _ dflt); [rewrite E, app_nth2, Nat.sub_diag by lia; reflexivity|]. rewrite E, app_length. cbn [length]. lia. }
    rewrite RD. cbn [bind]. destruct (Nat.eqb_spec (length (fst fc)) 2) as [E2|E2]; [|reflexivity]. inversion EXr as [? ? H|? ? H]; subst; [contradiction|].
    assert (WF : StronglySorted lt (fst fc) /\ Forall (fun v => v < n) (fst fc)). { rewrite Forall_forall in W. apply W. rewrite E. apply in_or_app. right. left. reflexivity. }
    destruct (fst fc) as [|i [|j [|]]] eqn:EV; try discriminate E2. destruct WF as [_ WF]. inversion WF as [|? ? Li WF']; subst. inversion WF' as [|? ? Lj _]; subst.
    assert (LB : forall v, v < n -> 2 <= nth v (v_labels gm) 0) by (intros v Hv; rewrite Forall_forall in L2; apply L2, nth_In; exact Hv).
    assert (WT : exists w, dm_weight gm fc = Ret w).
    { unfold dm_weight, dm_at. rewrite EV. cbn [mapM]. rewrite !(Base.rd_nth _ (v_labels gm) _ 0) by assumption. cbn [bind combine forallb fst snd]. pose proof (LB i Li). pose proof (LB j Lj).
      destruct (Nat.ltb_spec 0 (nth i (v_labels gm) 0)); [|lia]. destruct (Nat.ltb_spec 0 (nth j (v_labels gm) 0)); [|lia]. destruct (Nat.ltb_spec 1 (nth j (v_labels gm) 0)); [|lia]. cbn. eauto. }
    destruct WT as [w WT]. rewrite WT. cbn [bind].
    assert (GO : exists p' pairs', (if Qc_lt threshold w then vi0 <- rd [i; j] 0 ;; vi1 <- rd [i; j] 1 ;; part_merge p vi0 vi1 else Ret p) = Ret p' /\ PInv p' n pairs').
    { destruct (Qc_lt threshold w); [|eauto]. cbn [rd nth_error bind]. destruct (PInv_merge p n pairs i j PI Li Lj) as (p' & EP & PI'). eauto. }
    destruct GO as (p' & pairs' & GO & PI'). rewrite GO. cbn [bind]. replace (S (length pre)) with (length (pre ++ [fc])) by (rewrite app_length; cbn; lia). apply (IH (pre ++ [fc]) p' pairs'); [rewrite <- app_assoc; exact E|exact PI'|exact H]. }
  apply (X (v_factors gm) [] (part_init n) []); [reflexivity|apply PInv_init|exact EX].
Qed.
Print Assumptions C67_order.

(** ** An exact inference *)
Definition qbest (g : gmv Qc) : list nat :=
  fold_left (fun b y => if qlt (total AdderQ g y) (total AdderQ g b) then y else b) (RedInfer.labelings (v_labels g)) (repeat 0 (length (v_labels g))).
Definition try_all (g : gmv Qc) : outcome (list nat) := Ret (qbest g).
Lemma qbest_ok : forall g, multicut g -> optimal AdderQ MinimizerQ g (qbest g).
Proof.
  intros g MC. assert (L0 : labeling g (repeat 0 (length (v_labels g)))).
  { pose proof (multicut_wf g MC) as [_ P]. unfold labeling, in_shape. unfold positive in P. induction P as [|a l H P IH]; cbn; constructor; assumption. }
  assert (X : forall l b, labeling g b -> Forall (labeling g) l -> let r := fold_left (fun b y => if qlt (total AdderQ g y) (total AdderQ g b) then y else b) l b in
    labeling g r /\ (total AdderQ g r <= total AdderQ g b)%Qc /\ Forall (fun y => total AdderQ g r <= total AdderQ g y)%Qc l).
  { induction l as [|y l IH]; intros b LB FL; cbn [fold_left]; [split; [exact LB|]; split; [apply Qcle_refl|constructor]|]. inversion FL as [|? ? LY FL']; subst.
    destruct (qlt (total AdderQ g y) (total AdderQ g b)) eqn:Q.
    - apply GmViewProps.qlt_iff in Q. destruct (IH y LY FL') as (A & B & C). split; [exact A|]. split; [eapply Qcle_trans; [exact B|apply Qclt_le_weak; exact Q]|constructor; assumption].
    - apply GmViewProps.qlt_false in Q. destruct (IH b LB FL') as (A & B & C). split; [exact A|]. split; [exact B|]. constructor; [eapply Qcle_trans; [exact B|exact Q]|exact C]. }
  destruct (X (RedInfer.labelings (v_labels g)) _ L0) as (A & _ & C). { apply Forall_forall. intros y I. apply RedInfer.labelings_In. exact I. }
  split; [exact A|]. intros y LY. apply GmViewProps.qlt_false. rewrite Forall_forall in C. apply C. apply RedInfer.labelings_In. exact LY.
Qed.
Lemma try_all_ok : dm_labels try_all /\ dm_exact try_all.
Proof. split; [intros g MC; exists (qbest g); split; [reflexivity|apply qbest_ok; exact MC]|]. intros g x MC E. injection E as <-. apply qbest_ok. exact MC. Qed.

(** ** Examples *)
Definition qz (z : Z) : Qc := Q2Qc (inject_Z z).
Definition edge (i j : nat) (w : Qc) : list nat * (list nat -> Qc) := ([i; j], fun l => if nth 0 l 0 =? nth 1 l 0 then qz 0 else w).
Definition mc_model (m : nat) (es : list (nat * nat * Qc)) : gmv Qc := mkGmv (repeat m m) (map (fun '(i, j, w) => edge i j w) es).
Lemma mc_ok : forall m es, Forall (fun e => fst (fst e) < snd (fst e) < m) es -> multicut (mc_model m es).
Proof.
  intros m es H. unfold multicut, mc_model. cbn [v_labels v_factors]. rewrite repeat_length. split; [reflexivity|]. apply Forall_forall. intros fc I. apply in_map_iff in I. destruct I as ([[i j] w] & <- & I).
  rewrite Forall_forall in H. specialize (H _ I). exists i, j, (qz 0), w. split; [reflexivity|]. split; [exact H|]. reflexivity.
Qed.
(** an attracting triangle with one repulsive edge, a pair, and repulsive edges between them *)
Definition dm_g : gmv Qc := mc_model 5 [(0, 2, qz 3); (2, 4, qz 1); (0, 4, qz (-2)); (1, 3, qz 2); (0, 1, qz (-1)); (3, 4, qz (-1))]%nat.
Example C67_case : multicut dm_g /\ dm_labels try_all /\ dm_exact try_all /\ no_gap (qz 0) dm_g /\ no_parallel dm_g /\ dm_infer dm_g try_all (qz 0) (dm_new dm_g) = Ret [0; 3; 0; 3; 1].
Proof.
  split; [apply mc_ok; repeat constructor; cbn; lia|]. split; [apply try_all_ok|]. split; [apply try_all_ok|]. split.
  { split; [apply Qcle_refl|]. cbn [v_factors dm_g mc_model map]. repeat (apply Forall_cons; [first [left; vm_compute; discriminate|right; vm_compute; discriminate]|]). apply Forall_nil. }
  split; [repeat constructor; cbn; intuition discriminate|]. vm_compute. reflexivity.
Qed.
(** Refuted: value() is the value of arg().  It is always zero. *)
Theorem C67_value_refuted : (forall r, dm_value r = 0%Qc) /\ exists r, dm_infer dm_g try_all (qz 0) (dm_new dm_g) = Ret r /\ dm_value r <> total AdderQ dm_g r.
Proof. split; [reflexivity|]. eexists. split; [vm_compute; reflexivity|]. vm_compute. discriminate. Qed.
Print Assumptions C67_value_refuted.
(** Refuted: the result is optimal with an exact inference.  Two variables joined by an attracting factor are not separated although a second
    factor between them is more repulsive. *)
Theorem C67_parallel_refuted : exists gm r y, multicut gm /\ no_gap (qz 0) gm /\ dm_infer gm try_all (qz 0) (dm_new gm) = Ret r /\ labeling gm y /\ a_bop MinimizerQ (total AdderQ gm y) (total AdderQ gm r) = true.
Proof.
  exists (mc_model 3 [(0, 1, qz 1); (0, 1, qz (-5)); (1, 2, qz (-1))]%nat), [0; 0; 2], [0; 1; 2]. split; [apply mc_ok; repeat constructor; cbn; lia|]. split.
  { split; [apply Qcle_refl|]. cbn [v_factors dm_g mc_model map]. repeat (apply Forall_cons; [first [left; vm_compute; discriminate|right; vm_compute; discriminate]|]). apply Forall_nil. }
  split; [vm_compute; reflexivity|]. split; [repeat constructor|]. vm_compute. reflexivity.
Qed.
Print Assumptions C67_parallel_refuted.
(** The same with a weight between the default threshold and zero. *)
Theorem C67_gap_refuted : exists gm r y, multicut gm /\ no_parallel gm /\ dm_infer gm try_all (Q2Qc (-1 # 1000000000)) (dm_new gm) = Ret r /\ labeling gm y /\ a_bop MinimizerQ (total AdderQ gm y) (total AdderQ gm r) = true.
Proof.
  exists (mc_model 3 [(0, 1, Q2Qc (-1 # 10000000000)); (1, 2, qz (-1))]%nat), [0; 0; 2], [0; 1; 2]. split; [apply mc_ok; repeat constructor; cbn; lia|]. split; [repeat constructor; cbn; intuition discriminate|].
  split; [vm_compute; reflexivity|]. split; [repeat constructor|]. vm_compute. reflexivity.
Qed.
Print Assumptions C67_gap_refuted.
