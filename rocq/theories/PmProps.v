(** PartitionMove: the Kernighan-Lin heuristic for multicut problems. *)
From Coq Require Import QArith Qcanon Permutation Relations.
From Verif Require Import Base Values GmView GmViewSpec ShapeSpec GmViewProofs ConstraintModel DualDecompModel DualDecompProofs HoeProofs AStarSearch DmcSpec DmcProps FmProps FunctionBaseModel PmModel PmSpec PmProofs PmRun PmGraph PmInit.
Import DualDecompProofs.
Open Scope nat_scope.

(** Integral costs. *)
Definition isZ (q : Qc) : Prop := exists z, q = Q2Qc (inject_Z z).
Lemma isZ_0 : isZ 0%Qc. Proof. exists 0%Z. reflexivity. Qed.
Lemma isZ_plus : forall a b, isZ a -> isZ b -> isZ (a + b)%Qc.
Proof. intros a b [x ->] [y ->]. exists (x + y)%Z. apply Qc_is_canon. unfold Qcplus, Q2Qc. cbn [this]. rewrite !Qred_correct, inject_Z_plus. reflexivity. Qed.
Lemma isZ_sum : forall A (f : A -> Qc) l, (forall a, In a l -> isZ (f a)) -> isZ (qsum f l).
Proof. intros A f. induction l as [|a l IH]; intros H; [exact isZ_0|]. rewrite qsum_cons. apply isZ_plus; [apply H; left; reflexivity|]. apply IH. intros; apply H; right; assumption. Qed.
Lemma isZ_gap : forall a b, isZ a -> isZ b -> (a < b)%Qc -> (a <= b - 1)%Qc.
Proof.
  intros a b [x ->] [y ->] H. unfold Qclt, Qcle, Qcminus, Qcplus, Qcopp, Q2Qc in *. cbn [this] in *. rewrite !Qred_correct in *. rewrite <- Zlt_Qlt in H. change 1%Q with (inject_Z 1). rewrite <- inject_Z_opp, <- inject_Z_plus, <- Zle_Qle. lia.
Qed.
Lemma loop_more : forall order gm G f f' sets st x, f <= f' -> pm_loop order gm G f sets st = Ret x -> pm_loop order gm G f' sets st = Ret x.
Proof.
  intros order gm G. induction f as [|f IH]; intros f' sets st x L E; [discriminate|]. destruct f' as [|f']; [lia|]. cbn [pm_loop] in *. apply bind_inv in E. destruct E as ([[sets' st'] ch] & E1 & E2). rewrite E1. cbn [bind]. destruct ch; [apply IH; [lia|exact E2]|exact E2].
Qed.
Section Props.
Variables (order : list nat -> list nat) (gm : gmv Qc).
Notation n := (length (v_labels gm)).
Hypothesis W : wf_gmv gm.
Hypothesis N0 : 0 < n.
(** C68.  The constructor accepts a model if and only if it is a pairwise Potts model with enough labels; all others make it throw. *)
Theorem C68_new : (partition_model gm -> exists G st, pm_new gm = Ret (G, st)) /\ (~ partition_model gm -> pm_new gm = Throw).
Proof.
  unfold pm_new. destruct (check_ok gm W N0) as [[PM E]|[PM E]]; rewrite E; cbn [bind]; (split; [|tauto]); [|tauto]. intros _.
  destruct (graph_built gm W PM N0) as (G & es & EG & GO & _). rewrite EG. cbn [bind]. destruct (initial_ok gm G es GO) as (st & ES & _). rewrite ES. cbn [bind]. eauto.
Qed.
Hypothesis PM : partition_model gm.
Lemma arg_ok : forall x, length x = n -> pm_arg gm x = Ret x.
Proof.
  intros x L. unfold pm_arg. rewrite (mapM_Ret _ _ _ (fun v => nth v x 0)) by (intros v I; apply in_seq in I; apply rd_nth; lia). f_equal. rewrite <- L. clear. apply (nth_ext _ _ 0 0); [rewrite map_length, seq_length; reflexivity|]. intros i Hi. rewrite map_length, seq_length in Hi. rewrite nth_map_seq0 by exact Hi. reflexivity.
Qed.
Lemma attract_iff : forall G es, graph_ok gm G es ->
  (forall a b e, In (a, b, e) es -> exists fc, In fc (v_factors gm) /\ fst fc = [a; b] /\ wt G e = cut_weight fc) ->
  (forall fc a b, In fc (v_factors gm) -> fst fc = [a; b] -> exists e, In (a, b, e) es /\ wt G e = cut_weight fc) -> forall u v, pos G es u v <-> attracted gm u v.
Proof.
  intros G es GO H1 H2 u v. split.
  - intros (e & I & H). unfold nb in I. apply in_flat_map in I. destruct I as ([[a b] d] & I & J). destruct (H1 a b d I) as (fc & F1 & F2 & F3). exists fc. split; [exact F1|].
    destruct (Nat.eqb_spec a u) as [->|]; [|destruct (Nat.eqb_spec b u) as [->|]]; cbn in J; [destruct J as [J|[]]|destruct J as [J|[]]|destruct J]; inversion J; subst; (split; [auto|rewrite <- F3; exact H]).
  - intros (fc & F1 & [F2|F2] & F3); destruct (H2 fc _ _ F1 F2) as (e & I & E); exists e; rewrite E; (split; [|exact F3]); unfold nb; apply in_flat_map; eexists; (split; [exact I|]); cbn.
    + rewrite Nat.eqb_refl. left. reflexivity.
    + destruct (Nat.eqb_spec v u) as [->|]; [left; reflexivity|]. rewrite Nat.eqb_refl. left. reflexivity.
Qed.
Lemma conn_iff : forall (R S : nat -> nat -> Prop), (forall u v, R u v <-> S u v) -> forall u v, clos_refl_trans nat R u v <-> clos_refl_trans nat S u v.
Proof. intros R S H u v. split; intros C; induction C as [? ? X| |]; [apply rt_step, H; exact X|apply rt_refl|eapply rt_trans; eassumption|apply rt_step, H; exact X|apply rt_refl|eapply rt_trans; eassumption]. Qed.
(** Before infer(), arg() is a labeling; without double factors its sets are the components of the attractive factors. *)
Theorem C68_initial : exists G x, pm_new gm = Ret (G, x) /\ pm_arg gm x = Ret x /\ labeling gm x /\
  (no_double gm -> forall u v, u < n -> v < n -> (nth u x 0 = nth v x 0 <-> connected_by gm u v)).
Proof.
  unfold pm_new. destruct (check_ok gm W N0) as [[_ E]|[X _]]; [|contradiction]. rewrite E. cbn [bind]. destruct (graph_built gm W PM N0) as (G & es & EG & GO & H1 & H2). rewrite EG. cbn [bind]. destruct (initial_ok gm G es GO) as (st & ES & L & B & C). rewrite ES. cbn [bind].
  exists G, st. split; [reflexivity|]. split; [apply arg_ok; exact L|]. split; [apply labeling_of; assumption|]. intros ND u v Hu Hv. rewrite (C u v Hu Hv). destruct (H2 ND) as (H3 & _). apply conn_iff. apply (attract_iff G es GO H1 H3).
Qed.
Hypothesis ORD : iterates order.
Lemma run_ok : exists G es st x m, pm_new gm = Ret (G, st) /\ graph_ok gm G es /\ labeling gm st /\ result gm G es (labs st) x /\ labeling gm x /\ (forall fuel, m <= fuel -> pm_run order gm fuel = Ret x) /\
  (no_double gm -> exists K, forall y, labeling gm y -> total AdderQ gm y = (K + cost G es (labs y))%Qc) /\
  (integral gm -> integ G es).
Proof.
  unfold pm_run, pm_new. destruct (check_ok gm W N0) as [[_ E]|[X _]]; [|contradiction]. rewrite E. cbn [bind]. destruct (graph_built gm W PM N0) as (G & es & EG & GO & H1 & H2). rewrite EG. cbn [bind]. destruct (initial_ok gm G es GO) as (st & ES & L & B & _). rewrite ES. cbn [bind].
  destruct (infer_ok order ORD gm G es GO st L) as (x & m & R & EX). pose proof R as ((sets & [LX _] & _) & _).
  exists G, es, st, x, m. split; [reflexivity|]. split; [exact GO|]. split; [apply labeling_of; assumption|]. split; [exact R|]. split; [apply labeling_of; [exact PM|exact LX|]; intros v Hv; eapply result_lt; eassumption|]. split; [|split].
  - intros fuel HF. rewrite (EX fuel HF). cbn [bind]. apply arg_ok. exact LX.
  - intros ND. apply H2. exact ND.
  - intros IN c1 c2 LT. apply isZ_gap; [| |exact LT]; unfold cost; apply isZ_sum; intros [[a b] e] I; destruct (_ =? _); try exact isZ_0; destruct (H1 a b e I) as (fc & F1 & F2 & ->); unfold integral in IN; rewrite Forall_forall in IN; apply (IN fc F1); rewrite F2; reflexivity.
Qed.
Lemma run_det : forall f x m y, pm_run order gm f = Ret x -> (forall fuel, m <= fuel -> pm_run order gm fuel = Ret y) -> x = y.
Proof.
  intros f x m y E H. specialize (H (Nat.max f m) ltac:(lia)). unfold pm_run in *. apply bind_inv in E. destruct E as ([G st] & E1 & E2). rewrite E1 in H. cbn [bind] in H. apply bind_inv in E2. destruct E2 as (s & E2 & E3).
  unfold pm_infer in *. apply bind_inv in E2. destruct E2 as (sets & E4 & E5). rewrite E4 in H. cbn [bind] in H. rewrite (loop_more order gm G f (Nat.max f m) sets st s ltac:(lia) E5) in H. cbn [bind] in H. congruence.
Qed.
(** infer() ends, and arg() is a labeling. *)
Theorem C68_runs : exists x m, labeling gm x /\ forall fuel, m <= fuel -> pm_run order gm fuel = Ret x.
Proof. destruct run_ok as (G & es & st & x & m & _ & _ & _ & _ & L & E & _). eauto. Qed.
Lemma upd_labeling : forall x v l, labeling gm x -> v < n -> l < nth v (v_labels gm) 0 -> labeling gm (upd x v l).
Proof.
  intros x v l L Hv Hl. pose proof (labeling_length Qc gm x L) as LX. apply in_shape_nths; [rewrite length_upd; exact LX|]. intros u Hu. destruct (Nat.eq_dec u v) as [->|NE]; [rewrite nth_upd_eq by lia; exact Hl|]. rewrite nth_upd_neq by auto. apply in_shape_lt; assumption.
Qed.
Lemma upd_cost : forall G es x v l, graph_ok gm G es -> labeling gm x -> v < n -> cost G es (labs (upd x v l)) = cost G es (recol (labs x) v l).
Proof.
  intros G es x v l GO L Hv. pose proof (labeling_length Qc gm x L) as LX. apply (cost_ext gm G es GO). intros u Hu. unfold labs, recol. destruct (Nat.eqb_spec u v) as [->|NE]; [apply nth_upd_eq; lia|apply nth_upd_neq; auto].
Qed.
Hypothesis ND : no_double gm.
(** The value is at most that before infer(), the value of the components of the attractive factors. *)
Theorem C68_value : forall fuel x y, pm_run order gm fuel = Ret x -> labeling gm y -> (forall u v, u < n -> v < n -> (nth u y 0 = nth v y 0 <-> connected_by gm u v)) -> (total AdderQ gm x <= total AdderQ gm y)%Qc.
Proof.
  intros fuel x y E LY CY. destruct run_ok as (G & es & st & x' & m & EN & GO & LS & R & LX & EX & HT & _). pose proof (run_det fuel x m x' E EX) as <-. destruct (HT ND) as [K HK]. rewrite (HK x LX), (HK y LY). destruct R as (_ & R & _).
  destruct C68_initial as (G' & st' & EN' & _ & _ & CI). rewrite EN in EN'. injection EN' as <- <-. rewrite (cost_same gm G es GO (labs y) (labs st)); [qlra|]. intros u v Hu Hv. unfold labs. rewrite (CY u v Hu Hv), (CI ND u v Hu Hv). reflexivity.
Qed.
(** No variable can leave its set for a set of its own and lower the value by 1e-10. *)
Theorem C68_isolated : forall fuel x v l, pm_run order gm fuel = Ret x -> v < n -> l < nth v (v_labels gm) 0 -> ~ In l x -> (total AdderQ gm x - Q2Qc (1 # 10000000000) < total AdderQ gm (upd x v l))%Qc.
Proof.
  intros fuel x v l E Hv Hl NI. destruct run_ok as (G & es & st & x' & m & EN & GO & LS & R & LX & EX & HT & _). pose proof (run_det fuel x m x' E EX) as <-. destruct (HT ND) as [K HK]. pose proof (labeling_length Qc gm x LX) as LL.
  rewrite (HK x LX), (HK _ (upd_labeling x v l LX Hv Hl)), (upd_cost G es x v l GO LX Hv). assert (NU : forall u, u < n -> labs x u <> l) by (intros u Hu X; apply NI; rewrite <- X; apply nth_In; lia).
  rewrite (recol_cost gm G es GO (labs x) v l) by (intros X; exact (NU v Hv (eq_sym X))). rewrite (iso_gain G es (labs x) v l). 2: { intros u e I. apply NU. apply (nb_ok gm G es GO) in I. tauto. }
  destruct R as (_ & _ & R & _). specialize (R v Hv). fold pm_eps10. qlra.
Qed.
(** With integral costs no change of a single label lowers the value. *)
Theorem C68_local : integral gm -> forall fuel x v l, pm_run order gm fuel = Ret x -> v < n -> l < nth v (v_labels gm) 0 -> (total AdderQ gm x <= total AdderQ gm (upd x v l))%Qc.
Proof.
  intros IN fuel x v l E Hv Hl. destruct run_ok as (G & es & st & x' & m & EN & GO & LS & R & LX & EX & HT & HI). pose proof (run_det fuel x m x' E EX) as <-. destruct (HT ND) as [K HK].
  rewrite (HK x LX), (HK _ (upd_labeling x v l LX Hv Hl)), (upd_cost G es x v l GO LX Hv). destruct R as (_ & _ & _ & R). specialize (R (HI IN) v l Hv). qlra.
Qed.
End Props.
Print Assumptions C68_new.
Print Assumptions C68_initial.
Print Assumptions C68_runs.
Print Assumptions C68_value.
Print Assumptions C68_isolated.
Print Assumptions C68_local.

(** The constructor reads the number of labels of variable 0, also of a model without variables. *)
Theorem C68_no_variables_refuted : forall facs, pm_new (mkGmv [] facs) = Undef.
Proof. reflexivity. Qed.
Print Assumptions C68_no_variables_refuted.

(** The models of the examples: labels 0 .. m - 1, weights of cutting. *)
Lemma mc_partition : forall m es, partition_model (mc_model m es).
Proof.
  intros m es. split; unfold mc_model; cbn [v_labels v_factors].
  - apply Forall_forall. intros k I. apply repeat_spec in I. subst. rewrite repeat_length. lia.
  - apply Forall_forall. intros fc I. apply in_map_iff in I. destruct I as ([[i j] w] & <- & I). right. split; [reflexivity|]. exists (qz 0), w. reflexivity.
Qed.
Definition ident (s : list nat) : list nat := s.
Lemma ident_ok : iterates ident. Proof. intros s. apply Permutation_refl. Qed.
Lemma reversed_ok : iterates (@rev nat). Proof. intros s. apply Permutation_sym, Permutation_rev. Qed.
Definition w_of (n : Z) (d : BinNums.positive) : Qc := Q2Qc (n # d).
(** Two factors with the same variables: the second weight replaces the first in the adjacency, and infer() makes the value worse. *)
Definition dbl : gmv Qc := mc_model 3 [(0, 1, qz 5); (0, 1, qz (-1)); (0, 2, w_of 3 10); (1, 2, w_of 3 10)].
Theorem C68_double_refuted : wf_gmv dbl /\ partition_model dbl /\ exists G x y, pm_new dbl = Ret (G, x) /\ pm_run ident dbl 5 = Ret y /\ total AdderQ dbl x = qz 0 /\ total AdderQ dbl y = w_of 43 10.
Proof.
  split; [apply multicut_wf, mc_ok; repeat constructor|]. split; [apply mc_partition|].
  exists (mkGraph [qz 5; qz (-1); w_of 3 10; w_of 3 10] [[(1, 1); (2, 2)]; [(0, 1); (2, 3)]; [(0, 2); (1, 3)]]), [0; 0; 0], [0; 1; 0]. repeat split; vm_compute; reflexivity.
Qed.
Print Assumptions C68_double_refuted.
(** Weights below 1e-10: the result is improved by moving one variable. *)
Definition tiny : gmv Qc := mc_model 3 [(0, 1, qz 1); (1, 2, w_of 1 100000000000); (0, 2, w_of (-2) 100000000000)].
Theorem C68_small_refuted : wf_gmv tiny /\ partition_model tiny /\ no_double tiny /\ exists x, pm_run ident tiny 5 = Ret x /\ (total AdderQ tiny (upd x 2%nat 1%nat) < total AdderQ tiny x)%Qc.
Proof.
  split; [apply multicut_wf, mc_ok; repeat constructor|]. split; [apply mc_partition|]. split.
  - repeat constructor; cbn; intuition discriminate.
  - exists [0; 0; 0]. split; vm_compute; reflexivity.
Qed.
Print Assumptions C68_small_refuted.
(** A local optimum: the result need not be optimal, also with integral costs. *)
Definition stuck : gmv Qc := mc_model 4 [(0, 1, qz (-3)); (0, 2, qz (-2)); (1, 2, qz 1); (1, 3, qz 2); (2, 3, qz (-3))].
Theorem C68_optimal_refuted : wf_gmv stuck /\ partition_model stuck /\ no_double stuck /\ integral stuck /\ exists x y, pm_run ident stuck 9 = Ret x /\ labeling stuck y /\ (total AdderQ stuck y < total AdderQ stuck x)%Qc.
Proof.
  split; [apply multicut_wf, mc_ok; repeat constructor|]. split; [apply mc_partition|]. split; [|split].
  - repeat constructor; cbn; intuition discriminate.
  - repeat constructor; intros _; [exists (-3)%Z|exists (-2)%Z|exists 1%Z|exists 2%Z|exists (-3)%Z]; vm_compute; reflexivity.
  - exists [0; 1; 1; 0], [0; 1; 2; 1]. split; [vm_compute; reflexivity|]. split; [repeat constructor|vm_compute; reflexivity].
Qed.
Print Assumptions C68_optimal_refuted.

(** An attractive path whose ends repel each other: the components are one set, which infer() splits; in either order of iteration. *)
Definition path : gmv Qc := mc_model 4 [(0, 1, qz 3); (1, 2, qz 1); (2, 3, qz 2); (0, 3, qz (-4)); (1, 3, qz (-1))].
Example C68_ex : wf_gmv path /\ partition_model path /\ no_double path /\ integral path /\ iterates ident /\ iterates (@rev nat) /\ 0 < length (v_labels path).
Proof.
  split; [apply multicut_wf, mc_ok; repeat constructor|]. split; [apply mc_partition|]. split; [|split; [|split; [exact ident_ok|split; [exact reversed_ok|cbn; lia]]]].
  - repeat constructor; cbn; intuition discriminate.
  - repeat constructor; intros _; [exists 3%Z|exists 1%Z|exists 2%Z|exists (-4)%Z|exists (-1)%Z]; vm_compute; reflexivity.
Qed.
Example C68_ex_run : (exists G, pm_new path = Ret (G, [0; 0; 0; 0])) /\ (exists x, pm_run ident path 9 = Ret x /\ total AdderQ path x = qz (-4)) /\ (exists x, pm_run (@rev nat) path 9 = Ret x /\ total AdderQ path x = qz (-4)).
Proof.
  split; [|split].
  - exists (mkGraph [qz 3; qz 1; qz 2; qz (-4); qz (-1)] [[(1, 0); (3, 3)]; [(0, 0); (2, 1); (3, 4)]; [(1, 1); (3, 2)]; [(2, 2); (0, 3); (1, 4)]]). vm_compute; reflexivity.
  - exists [0; 0; 1; 1]. split; vm_compute; reflexivity.
  - exists [0; 0; 1; 1]. split; vm_compute; reflexivity.
Qed.
(** A unary factor is rejected. *)
Example C68_ex_throw : pm_new (mkGmv [2; 2] [([0], fun _ => qz 1)]) = Throw /\ pm_new (mkGmv [2; 2; 2] [edge 0 1 (qz 1)]) = Throw.
Proof. split; vm_compute; reflexivity. Qed.
