(** C57: FusionMover and HlFusionMover.
    Spec: FmSpec.v, GmViewSpec.v, FuseSpec.v; model: FmModel.v (auxiliary/fusion_move/fusion_mover.hxx). *)
From Coq Require Import QArith Qcanon Sorting.Sorted Permutation.
From Verif Require Import Base Values GmView GmViewSpec ShapeSpec AlphaBetaSwapSpec OperationsModel GmViewProps DualDecompModel HoeModel HoeSpec HoeProofs HoeElim HoeReduce HoeProps FuseModel FuseProofs FuseSpec HqpboModel FuseMoves FuseProps GmViewProofs FmModel FmSpec FmProofs.
Open Scope nat_scope.

Section Mover.
Variables (T : Type) (fin : T -> Prop) (OP : oper T) (ACC : accum T) (g : gmv T) (A B : list nat) (vs : list nat * list nat) (res : list nat).
Let n := length (v_labels g).
Hypothesis OL : op_laws fin OP.
Hypothesis AL : acc_laws fin OP ACC.
Hypothesis W : wf_gmv g.
Hypothesis FG : fin_gmv fin g.
Hypothesis LA : labeling g A.
Hypothesis LB : labeling g B.
(** The index vectors, with any old contents, and the vector for the result. *)
Hypothesis L1 : length (fst vs) = n.
Hypothesis L2 : length (snd vs) = n.
Hypothesis L3 : length res = n.

(** setup counts the variables with different labels; if there are some, the binary model has one variable for each of
    them and, up to a constant, the values of the labelings its labels stand for. *)
Theorem C57_submodel d vA vB : order_at_most d g -> exists m, fm_setup T ACC g vs A B res vA vB = Ret m /\ fm_n m = length (differing A B) /\
  (fm_n m = 0 -> fm_subModel T g m = Throw) /\
  (0 < fm_n m -> exists sub c, fm_subModel T g m = Ret sub /\ length (v_labels sub) = fm_n m /\ binary_model d sub /\ fin_gmv fin sub /\ fin c /\
     forall l, labeling sub l -> exists z, chosen A B l z /\ labeling g z /\ total OP g z = o_op OP (total OP sub l) c).
Proof.
  intros HD. destruct (setup_ok T ACC g A B LA LB vs res vA vB L1 L2 L3) as (m & E & S & _). exists m. split; [exact E|]. pose proof (lenA T g A LA) as EA. fold n in EA.
  assert (ED : differing A B = frees A B n) by (unfold differing; rewrite EA; reflexivity). split; [rewrite (su_n _ _ _ _ _ _ S), ED; reflexivity|]. split; [intros Z; unfold fm_subModel; rewrite Z; reflexivity|].
  intros HP. rewrite (su_n _ _ _ _ _ _ S) in *. destruct (fill_ok T OP ACC g A B W m S HP) as (F & EF & ND & HF). exists (mkGmv (repeat 2 (pos A B n)) (map (sub_factor T OP g A B) F)), (const T OP g A F).
  split; [exact EF|]. split; [apply repeat_length|]. split; [apply (sub_binary T OP g A B W F HF d HD)|]. split; [apply (sub_fin T OP g A B W LA LB fin OL FG F HF)|]. split; [apply (const_fin T OP g A W LA fin OL FG F)|].
  intros l Hl. exists (unfuse T g A B l). split; [|split; [apply (fused_labeling T g A B LA LB), (unfuse_fused T g A B LA)|apply (total_unfuse T OP g A B W LA LB fin OL FG F ND HF)]].
  split; [rewrite (unfuse_length T g A B), EA; reflexivity|]. split.
  - intros v Hv. destruct (Nat.lt_ge_cases v n) as [H|H]; [|rewrite !nth_overflow; [reflexivity|rewrite EA; exact H|rewrite (unfuse_length T g A B); exact H]]. rewrite (unfuse_nth T g A B) by exact H. unfold free. rewrite Hv, Nat.eqb_refl. reflexivity.
  - intros i Hi. cbn. rewrite ED in *. destruct (pos_frees A B n i Hi) as (P1 & P2 & P3). rewrite (unfuse_nth T g A B) by exact P1. rewrite P2, P3. reflexivity.
Qed.
(** fuse with any solver that returns labelings. *)
Theorem C57_fuse d solver warm : A <> B -> order_at_most d g -> returns_labelings d solver ->
  exists m r, fm_setup T ACC g vs A B res (total OP g A) (total OP g B) = Ret m /\ fm_fuse T OP ACC g solver warm m = Ret r /\ good_fusion OP ACC g A B r /\
    (exact_solver fin OP ACC d solver -> best_fusion OP ACC g A B (snd r)).
Proof.
  intros NE HD HR. destruct (setup_ok T ACC g A B LA LB vs res (total OP g A) (total OP g B) L1 L2 L3) as (m & E & S & VA & VB). exists m.
  destruct (fuse_ok T OP ACC g A B W LA LB fin OL AL FG m S VA VB solver warm d) as (r & H); [|exact HD|exact HR|exists r; split; [exact E|exact H]].
  fold n. destruct (pos A B n) eqn:P; [|lia]. exfalso. apply NE. apply (nth_ext _ _ 0 0); [rewrite (lenA T g A LA), (lenB T g B LB); reflexivity|]. intros v Hv. rewrite (lenA T g A LA) in Hv. fold n in Hv.
  destruct (free A B v) eqn:Fv; [pose proof (pos_lt A B v n Fv Hv); lia|]. unfold free in Fv. apply negb_false_iff, Nat.eqb_eq in Fv. exact Fv.
Qed.
Lemma pos_zero : pos A B n = 0 <-> A = B.
Proof.
  split.
  - intros P. apply (nth_ext _ _ 0 0); [rewrite (lenA T g A LA), (lenB T g B LB); reflexivity|]. intros v Hv. rewrite (lenA T g A LA) in Hv. fold n in Hv.
    destruct (free A B v) eqn:Fv; [pose proof (pos_lt A B v n Fv Hv); lia|]. unfold free in Fv. apply negb_false_iff, Nat.eqb_eq in Fv. exact Fv.
  - intros E. unfold pos. replace (filter (free A B) (seq 0 n)) with (@nil nat); [reflexivity|]. symmetry. rewrite E. clear. induction (seq 0 n) as [|v l IH]; cbn; [reflexivity|]. unfold free at 1. rewrite Nat.eqb_refl. exact IH.
Qed.
(** fuseQpbo, whatever labels QPBO returns. *)
Theorem C57_fuseQpbo solver : A <> B -> order_at_most 2 g ->
  exists m r, fm_setup T ACC g vs A B res (total OP g A) (total OP g B) = Ret m /\ fm_fuseQpbo T OP ACC g solver m = Ret r /\ good_fusion OP ACC g A B r /\
    (qp_exact OP ACC solver -> best_fusion OP ACC g A B (snd r)).
Proof.
  intros NE HD. destruct (setup_ok T ACC g A B LA LB vs res (total OP g A) (total OP g B) L1 L2 L3) as (m & E & S & VA & VB). exists m.
  destruct (fuseQpbo_ok T OP ACC g A B W LA LB fin OL AL FG m S VA VB solver) as (r & H); [|exact HD|exists r; split; [exact E|exact H]].
  fold n. rewrite <- pos_zero in NE. lia.
Qed.
(** HlFusionMover::fuse: for equal labelings it reports that nothing was fused. *)
Definition used_solver (s : hlsolvers T) (kind : fusionSolver) : bsolver T := match kind with QpboFusion => hl_hqpbo s | LazyFlipperFusion => hl_lf s | CplexFusion => hl_cplex s end.
Lemma hl_order_ok : order_at_most (hl_order T g) g.
Proof.
  unfold order_at_most, hl_order.
  assert (G : forall (l : list (list nat * (list nat -> T))) a, a <= fold_left (fun m fc => Nat.max m (length (fst fc))) l a /\ Forall (fun fc => length (fst fc) <= fold_left (fun m fc => Nat.max m (length (fst fc))) l a) l).
  { induction l as [|fc l IH]; intros a; cbn [fold_left]; [split; [lia|constructor]|]. destruct (IH (Nat.max a (length (fst fc)))) as [I1 I2]. split; [lia|]. constructor; [lia|exact I2]. }
  apply G.
Qed.
Theorem C57_hl s kind d : order_at_most d g -> returns_labelings d (used_solver s kind) \/ kind = QpboFusion /\ d = 2 ->
  (A = B -> hl_fuse T OP ACC g s kind vs A B res (total OP g A) (total OP g B) = Ret (None, A)) /\
  (A <> B -> exists v z, hl_fuse T OP ACC g s kind vs A B res (total OP g A) (total OP g B) = Ret (Some v, z) /\ good_fusion OP ACC g A B (v, z) /\
     (exact_solver fin OP ACC d (used_solver s kind) -> qp_exact OP ACC (hl_qpbo s) -> best_fusion OP ACC g A B z)).
Proof.
  intros HD HR. destruct (setup_ok T ACC g A B LA LB vs res (total OP g A) (total OP g B) L1 L2 L3) as (m & E & S & VA & VB). unfold hl_fuse. rewrite E. cbn [bind]. rewrite (su_n _ _ _ _ _ _ S). fold n. split.
  - intros H. rewrite <- pos_zero in H. rewrite H. cbn [Nat.ltb Nat.leb]. rewrite (su_res _ _ _ _ _ _ S). reflexivity.
  - intros NE. rewrite <- pos_zero in NE. assert (HP : 0 < pos A B n) by lia. rewrite (proj2 (Nat.ltb_lt _ _) HP).
    destruct (match kind with QpboFusion => hl_order T g <=? 2 | _ => false end) eqn:Q.
    + destruct kind; try discriminate Q. rewrite Q. apply Nat.leb_le in Q. assert (O2 : order_at_most 2 g) by (eapply Forall_impl; [|apply hl_order_ok]; cbn; intros; lia).
      destruct (fuseQpbo_ok T OP ACC g A B W LA LB fin OL AL FG m S VA VB (hl_qpbo s) HP O2) as ((v & z) & H1 & H2 & H3). rewrite H1. cbn [bind]. exists v, z. auto.
    + assert (HR' : returns_labelings d (used_solver s kind)).
      { destruct HR as [H|[-> ->]]; [exact H|]. exfalso. apply Nat.leb_gt in Q. apply (Nat.lt_irrefl 2). eapply Nat.lt_le_trans; [exact Q|]. clear - HD. unfold hl_order. assert (G : forall (l : list (list nat * (list nat -> T))) a, a <= 2 -> Forall (fun fc => length (fst fc) <= 2) l -> fold_left (fun m fc => Nat.max m (length (fst fc))) l a <= 2); [|apply G; [lia|exact HD]]. induction l as [|fc l IH]; intros a Ha F; cbn [fold_left]; [exact Ha|]. inversion F; subst. apply IH; [lia|assumption]. }
      destruct (fuse_ok T OP ACC g A B W LA LB fin OL AL FG m S VA VB (used_solver s kind) true d HP HD HR') as ((v & z) & H1 & H2 & H3).
      exists v, z. destruct kind; cbn [used_solver] in *; try rewrite Q; rewrite H1; cbn [bind]; auto.
Qed.
End Mover.
Print Assumptions C57_submodel.
Print Assumptions C57_fuse.
Print Assumptions C57_fuseQpbo.
Print Assumptions C57_hl.

(** *** With HQPBO as the solver *)
Definition MinimizerQ : accum Qc := Minimizer Qc qlt 0%Qc 0%Qc.
Definition allQ (a : Qc) : Prop := True.
Lemma adderQ_laws : op_laws allQ AdderQ.
Proof. split; cbn; unfold allQ; auto; intros; try ring. Qed.
Lemma minimizerQ_laws : acc_laws allQ AdderQ MinimizerQ.
Proof.
  split; cbn; unfold Minimizer_bop.
  - intros a _. apply qlt_false. apply Qcle_refl.
  - intros a b c _ _ _. rewrite !qlt_iff. intros X Y. eapply Qclt_trans; eauto.
  - intros a b c _ _ _. rewrite !qlt_false. intros X Y. eapply Qcle_trans; eauto.
  - intros a b c _ _ _. destruct (qlt a b) eqn:E; [apply qlt_iff in E; apply qlt_iff|apply qlt_false in E; apply qlt_false]; qlra.
Qed.
Lemma all_fin (g : gmv Qc) : fin_gmv allQ g. Proof. apply Forall_forall. intros fc _ x _. exact I. Qed.
Theorem C57_hqpbo_solver solve : qpbo_solver solve -> returns_labelings 10 (hqpbo_bsolver solve) /\ (complete_solver solve -> exact_solver allQ AdderQ MinimizerQ 10 (hqpbo_bsolver solve)).
Proof.
  intros QP.
  assert (G : forall sub start, binary_model 10 sub -> start_ok sub start -> exists l, hqpbo_bsolver solve sub start = Ret (Some l) /\ labeling sub l /\ (complete_solver solve -> best_labeling sub l)).
  { intros sub start (W & K & O) SO. unfold hqpbo_bsolver.
    destruct (C55_hqpbo sub solve W K O QP (match start with Some x => [HStart x] | None => [] end)) as (s & s' & E & E' & _ & L' & _ & B'); [destruct start as [x|]; repeat constructor; exact SO|].
    unfold hq_run in E. destruct (hq_new sub) as [s0| | |]; try discriminate E. cbn [bind] in E |- *. destruct start as [x|]; cbn [foldM hq_step] in E.
    - destruct (hq_setStart sub s0 x) as [s1| | |]; try discriminate E. cbn [bind] in E |- *. injection E as ->. rewrite E'. cbn [bind]. eexists. split; [reflexivity|]. auto.
    - injection E as ->. cbn [bind]. rewrite E'. cbn [bind]. eexists. split; [reflexivity|]. auto. }
  split.
  - intros sub start B S. destruct (G sub start B S) as (l & E & L & _). eauto.
  - intros CS sub start l B _ S E. destruct (G sub start B S) as (l' & E' & L & BL). assert (l' = l) by congruence. subst l'. destruct (BL CS) as [_ H]. split; [exact L|]. intros y Hy. cbn. unfold Minimizer_bop. apply qlt_false. apply H. exact Hy.
Qed.
(** Fusion with HQPBO: a best fusion if QPBO labels all variables. *)
Theorem C57_fuse_hqpbo (g : gmv Qc) A B vs res solve warm : wf_gmv g -> order_at_most 10 g -> labeling g A -> labeling g B -> A <> B -> length (fst vs) = length (v_labels g) -> length (snd vs) = length (v_labels g) -> length res = length (v_labels g) -> qpbo_solver solve ->
  exists m r, fm_setup Qc MinimizerQ g vs A B res (menergy g A) (menergy g B) = Ret m /\ fm_fuse Qc AdderQ MinimizerQ g (hqpbo_bsolver solve) warm m = Ret r /\
    good_fusion AdderQ MinimizerQ g A B r /\ (complete_solver solve -> best_fusion AdderQ MinimizerQ g A B (snd r)).
Proof.
  intros W O LA LB NE L1 L2 L3 QP. destruct (C57_hqpbo_solver solve QP) as [R X].
  destruct (C57_fuse Qc allQ AdderQ MinimizerQ g A B vs res adderQ_laws minimizerQ_laws W (all_fin g) LA LB L1 L2 L3 10 (hqpbo_bsolver solve) warm NE O R) as (m & r & E1 & E2 & G & B'). exists m, r. split; [exact E1|]. split; [exact E2|]. split; [exact G|]. intros CS. exact (B' (X CS)).
Qed.
Print Assumptions C57_fuse_hqpbo.

(** *** fuseFixQpbo *)
Theorem C57_fuseFix ACC (g : gmv Qc) A B vs res solve : acc_laws allQ AdderQ ACC -> wf_gmv g -> order_at_most 9 g -> labeling g A -> labeling g B -> A <> B -> length (fst vs) = length (v_labels g) -> length (snd vs) = length (v_labels g) -> length res = length (v_labels g) ->
  exists m r, fm_setup Qc ACC g vs A B res (menergy g A) (menergy g B) = Ret m /\ fm_fuseFixQpbo AdderQ ACC g solve m = Ret r /\ good_fusion AdderQ ACC g A B r.
Proof.
  intros AL W O LA LB NE L1 L2 L3. destruct (setup_ok Qc ACC g A B LA LB vs res (menergy g A) (menergy g B) L1 L2 L3) as (m & E & S & VA & VB). exists m.
  assert (HP : 0 < pos A B (length (v_labels g))) by (rewrite <- (pos_zero Qc g A B vs res LA LB L1 L2 L3) in NE; lia).
  destruct (fill_ok Qc AdderQ ACC g A B W m S HP) as (F & EF & ND & HF). unfold fm_fuseFixQpbo. rewrite EF. cbn [bind]. set (sub := mkGmv _ _).
  destruct (sub_binary Qc AdderQ g A B W F HF 9 O) as (SW & SK & SO). fold sub in SW, SK, SO.
  assert (C : exists css, mapM (fix_calls sub) (v_factors sub) = Ret css /\ Forall (call_ok 9 (length (v_labels sub))) (concat css)).
  { pose proof (wf_cliques_ok sub SW SO) as CO. unfold cliques_ok in CO. revert CO. generalize (v_factors sub). induction l as [|c l IH]; intros CO; cbn [mapM]; [exists []; split; [reflexivity|constructor]|].
    inversion CO as [|? ? (C1 & C2 & C3) CO']; subst. destruct (IH CO') as (css & E2 & O2).
    assert (X : exists cs, fix_calls sub c = Ret cs /\ Forall (call_ok 9 (length (v_labels sub))) cs).
    { assert (AT : forall l, Forall2 (fun v a => a = 1 \/ a = 0) (fst c) l -> factor_at sub c l = Ret (snd c l)).
      { intros l0 Hl. apply factor_at_ok. clear - C2 Hl SK. induction Hl as [|v a vs l Ha _ IH]; constructor; inversion C2; subst; auto. rewrite (two sub SK) by assumption. lia. }
      unfold fix_calls. destruct (fst c) as [|v [|w r]] eqn:EV.
      - exists []. unfold clique_calls. rewrite EV. split; [reflexivity|constructor].
      - rewrite !AT by (repeat constructor; auto). cbn [bind]. eexists. split; [reflexivity|]. repeat constructor. inversion C2; assumption.
      - rewrite <- EV in *. destruct (clique_calls_ok 9 (length (v_labels sub)) (factor_at sub) (fun _ => Ret 1) (fun _ => Ret 0) (fun _ => 1) (fun _ => 0) ltac:(reflexivity) ltac:(reflexivity) c C1 C2 C3 AT) as (cs & Ec & Oc & _). exists cs. auto. }
    destruct X as (cs & E1 & O1). rewrite E1. cbn [bind]. rewrite E2. cbn [bind]. exists (cs :: css). split; [reflexivity|]. cbn [concat]. apply Forall_app. auto. }
  destruct C as (css & EC & OC). rewrite EC. cbn [bind]. destruct (calls_ok_all 9 (length (v_labels sub)) (concat css) OC) as [K PV].
  destruct (run_ok 9 (CVars (length (v_labels sub)) :: concat css) hoe_new (wf_new 9) K) as (h & Eh & Wh & _). unfold hoe_run. rewrite Eh. cbn [bind].
  destruct (to_quadratic_ok 9 h Wh) as (h' & q & Eq & _). rewrite Eq. cbn [bind].
  rewrite (assign_ok Qc ACC g A B LA LB m S _ (fun lvi => solve q lvi)) by reflexivity. cbn [bind].
  destruct (finish_ok Qc AdderQ ACC g A B W LA LB allQ adderQ_laws AL (all_fin g) m S VA VB _ (assign_fused Qc ACC g A B LA LB m S (fun lvi => solve q lvi))) as (r & Er & G & _).
  exists r. auto.
Qed.
Print Assumptions C57_fuseFix.

(** *** Examples and refutations *)
(** Three variables with three labels, a factor over all three, a pair and a unary. *)
Definition ex_fm : gmv Qc := mkGmv [3; 3; 3]
  [([0; 1; 2], fun l => match l with [2; 1; 0] => Q2Qc (-5) | [0; 1; 2] => Q2Qc 3 | _ => Q2Qc 1 end);
   ([0; 2], fun l => match l with [a; b] => if a =? b then 0%Qc else 1%Qc | _ => 0%Qc end);
   ([1], fun l => match l with [0] => 0%Qc | _ => Q2Qc 2 end)].
Lemma ex_fm_wf : wf_gmv ex_fm /\ order_at_most 9 ex_fm.
Proof. split; [split|]; repeat constructor; cbn; lia. Qed.
Example C57_example : exists m r, fm_setup Qc MinimizerQ ex_fm (fm_vectors0 Qc ex_fm) [0; 1; 0] [2; 1; 2] [0; 0; 0] (menergy ex_fm [0; 1; 0]) (menergy ex_fm [2; 1; 2]) = Ret m /\
  fm_n m = 2 /\ fm_fuse Qc AdderQ MinimizerQ ex_fm (hqpbo_bsolver try_all) true m = Ret r /\ snd r = [2; 1; 0] /\ fst r = Q2Qc (-2) /\ labeling ex_fm [0; 1; 0] /\ labeling ex_fm [2; 1; 2].
Proof.
  destruct (fm_setup Qc MinimizerQ ex_fm (fm_vectors0 Qc ex_fm) [0; 1; 0] [2; 1; 2] [0; 0; 0] (menergy ex_fm [0; 1; 0]) (menergy ex_fm [2; 1; 2])) as [m| | |] eqn:R; [|vm_compute in R; discriminate R..].
  destruct (fm_fuse Qc AdderQ MinimizerQ ex_fm (hqpbo_bsolver try_all) true m) as [r| | |] eqn:Q; [|vm_compute in R; injection R as <-; vm_compute in Q; discriminate Q..].
  exists m, r. split; [reflexivity|]. split; [vm_compute in R; injection R as <-; reflexivity|]. split; [exact Q|]. vm_compute in R; injection R as <-; vm_compute in Q. injection Q as <-.
  split; [reflexivity|]. split; [apply Qc_is_canon; reflexivity|]. split; repeat constructor.
Qed.
(** A solver that reports UNKNOWN: the value is that of the better argument, but the labeling is argA. *)
Theorem C57_unknown_refuted : ~ (forall (g : gmv Qc) A B m r solver, wf_gmv g -> labeling g A -> labeling g B ->
  fm_setup Qc MinimizerQ g (fm_vectors0 Qc g) A B A (menergy g A) (menergy g B) = Ret m -> fm_fuse Qc AdderQ MinimizerQ g solver true m = Ret r -> fst r = menergy g (snd r)).
Proof.
  intros H. destruct (fm_setup Qc MinimizerQ ex_fm (fm_vectors0 Qc ex_fm) [0; 1; 0] [2; 1; 0] [0; 1; 0] (menergy ex_fm [0; 1; 0]) (menergy ex_fm [2; 1; 0])) as [m| | |] eqn:R; [|vm_compute in R; discriminate R..].
  destruct (fm_fuse Qc AdderQ MinimizerQ ex_fm (fun _ _ => Ret None) true m) as [r| | |] eqn:Q; [|vm_compute in R; injection R as <-; vm_compute in Q; discriminate Q..].
  specialize (H ex_fm [0; 1; 0] [2; 1; 0] m r (fun _ _ => Ret None) (proj1 ex_fm_wf) ltac:(repeat constructor) ltac:(repeat constructor) R Q). vm_compute in R. injection R as <-. vm_compute in Q. injection Q as <-. vm_compute in H. discriminate H.
Qed.
(** fuseFixQpbo gives pairs inverted labels: it misses the best fusion although QPBO labels all nodes and all factors have
    two variables. *)
Definition ex_pair : gmv Qc := mkGmv [2; 2] [([0; 1], fun l => match l with [0; 1] => Q2Qc (-5) | _ => 0%Qc end)].
Theorem C57_fix_refuted : ~ (forall (g : gmv Qc) A B m r solve, wf_gmv g -> order_at_most 9 g -> labeling g A -> labeling g B -> qpbo_solver solve -> complete_solver solve ->
  fm_setup Qc MinimizerQ g (fm_vectors0 Qc g) A B A (menergy g A) (menergy g B) = Ret m -> fm_fuseFixQpbo AdderQ MinimizerQ g solve m = Ret r -> best_fusion AdderQ MinimizerQ g A B (snd r)).
Proof.
  intros H. destruct (fm_setup Qc MinimizerQ ex_pair (fm_vectors0 Qc ex_pair) [0; 0] [1; 1] [0; 0] (menergy ex_pair [0; 0]) (menergy ex_pair [1; 1])) as [m| | |] eqn:R; [|vm_compute in R; discriminate R..].
  destruct (fm_fuseFixQpbo AdderQ MinimizerQ ex_pair try_all m) as [r| | |] eqn:Q; [|vm_compute in R; injection R as <-; vm_compute in Q; discriminate Q..].
  assert (W : wf_gmv ex_pair /\ order_at_most 9 ex_pair) by (split; [split|]; repeat constructor; cbn; lia).
  destruct (H ex_pair [0; 0] [1; 1] m r try_all (proj1 W) (proj2 W) ltac:(repeat constructor) ltac:(repeat constructor) (proj1 C55_solver_exists) (proj2 C55_solver_exists) R Q) as [_ B].
  specialize (B [0; 1] ltac:(split; [reflexivity|]; intros [|[|[|i]]]; cbn; auto)). vm_compute in R. injection R as <-. vm_compute in Q. injection Q as <-. vm_compute in B. discriminate B.
Qed.
(** HlFusionMover passes on what the fusion returns, but for equal labelings there is no value: the caller's variable stays
    as it was. *)
Theorem C57_equal_no_value_refuted : ~ (forall (g : gmv Qc) s kind A B v z, wf_gmv g -> labeling g A -> labeling g B ->
  hl_fuse Qc AdderQ MinimizerQ g s kind (fm_vectors0 Qc g) A B A (menergy g A) (menergy g B) = Ret (v, z) -> v = Some (menergy g z)).
Proof.
  intros H. specialize (H ex_pair (mkHl (fun _ _ _ _ => None) (hqpbo_bsolver try_all) (hqpbo_bsolver try_all) (hqpbo_bsolver try_all)) QpboFusion [0; 1] [0; 1] None [0; 1] ltac:(split; repeat constructor; cbn; lia) ltac:(repeat constructor) ltac:(repeat constructor) ltac:(vm_compute; reflexivity)). discriminate H.
Qed.
(** An exact QPBO solver exists: trying all labels. *)
Definition qp_try_all : qpsolver Qc := fun n terms _ i =>
  Some (as_fun (fold_left (fun b a => if qlt (qp_value AdderQ terms (as_fun a)) (qp_value AdderQ terms (as_fun b)) then a else b) (all_bits n) (repeat false n)) i).
Theorem C57_qp_exact_exists : qp_exact AdderQ MinimizerQ qp_try_all.
Proof.
  intros n terms start QN. unfold qp_try_all. eexists. split; [reflexivity|]. intros b'.
  assert (EX : qp_value AdderQ terms b' = qp_value AdderQ terms (as_fun (map b' (seq 0 n)))).
  { assert (X : forall v, v < n -> as_fun (map b' (seq 0 n)) v = b' v) by (intros v Hv; unfold as_fun; apply nth_map_seq; exact Hv). unfold qp_value. generalize (o_neutral AdderQ). induction QN as [|t ts Ht _ IH]; intros acc; cbn [fold_left]; [reflexivity|].
    rewrite IH. destruct t as [v e0 e1|v w e00 e01 e10 e11]; [rewrite X by exact Ht; reflexivity|destruct Ht as [H1 H2]; rewrite !X by assumption; reflexivity]. }
  rewrite EX. pose proof (all_bits_in b' n 0) as IN. revert IN. generalize (map b' (seq 0 n)). generalize (all_bits n) (repeat false n). clear.
  assert (G : forall l b, (qp_value AdderQ terms (as_fun (fold_left (fun b a => if qlt (qp_value AdderQ terms (as_fun a)) (qp_value AdderQ terms (as_fun b)) then a else b) l b)) <= qp_value AdderQ terms (as_fun b))%Qc /\
    forall a, In a l -> (qp_value AdderQ terms (as_fun (fold_left (fun b a => if qlt (qp_value AdderQ terms (as_fun a)) (qp_value AdderQ terms (as_fun b)) then a else b) l b)) <= qp_value AdderQ terms (as_fun a))%Qc).
  { induction l as [|a l IH]; intros b; cbn [fold_left]; [split; [qlra|intros a []]|]. destruct (qlt (qp_value AdderQ terms (as_fun a)) (qp_value AdderQ terms (as_fun b))) eqn:Q.
    - apply qlt_iff in Q. destruct (IH a) as [I1 I2]. split; [qlra|]. intros a' [<-|H]; [exact I1|apply I2; exact H].
    - apply qlt_false in Q. destruct (IH b) as [I1 I2]. split; [exact I1|]. intros a' [<-|H]; [qlra|apply I2; exact H]. }
  intros l b a Ha. cbn. unfold Minimizer_bop. apply qlt_false. apply G. exact Ha.
Qed.
