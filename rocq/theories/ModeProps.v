(** The labelings that belief propagation makes from its marginals. *)
From Coq Require Import Sorted Permutation Relations.
From Verif Require Import Base Values OperationsModel GmView GmViewSpec GmViewProps ShapeSpec FactorOpsModel FactorOpsSpec FactorGraphModel FactorGraphSpec FactorGraphAcyclic MpModel MpSpec MpSum MpState MpMessages MpTables MpRun MpProps MpRoundsProps ModeModel ModeSpec ModeSelect ModeLabel ModeRun.

(** The labels of every variable are smaller than the mark of a variable without label. *)
Definition small_labels {T : Type} (g : gmv T) (maxLabel : nat) : Prop := Forall (fun l => l <= maxLabel) (v_labels g).

Section Holds.
Variables (T : Type) (fin : T -> Prop) (OP : oper T) (ACC : accum T) (mult : bool) (small : T -> bool) (g : gmv T) (un : bool) (s : mp T).
Hypothesis HV : forall v, v < length (v_labels g) -> exists out c, mp_marginal T OP ACC mult small g s v = Ret out /\ length out = labels_at g v /\ good T fin OP ACC mult small g un [v] out c.
Hypothesis HF : forall f, f < length (v_factors g) -> exists out c, mp_factorMarginal T OP ACC mult small g s f = Ret out /\ length out = size_of (map (labels_at g) (MpState.vars T OP g f)) /\ good T fin OP ACC mult small g un (MpState.vars T OP g f) out c.
Lemma holds_var : forall v, v < length (v_labels g) -> holds T fin OP ACC g [v] (mp_marginal_factor T OP ACC mult small g s v).
Proof.
  intros v Hv. destruct (HV v Hv) as (out & c & E & L & FC & FO & M & _). exists out, c. unfold mp_marginal_factor. rewrite (rd_labels T g v Hv). cbn [bind]. rewrite E. cbn [bind].
  split; auto. split; [rewrite L; unfold size_of; cbn; lia|auto].
Qed.
Lemma holds_fac : forall f, f < length (v_factors g) -> MpState.vars T OP g f <> [] -> holds T fin OP ACC g (MpState.vars T OP g f) (mp_factorMarginal_factor T OP ACC mult small g s f).
Proof.
  intros f Hf _. destruct (HF f Hf) as (out & c & E & L & FC & FO & M & _). exists out, c. unfold mp_factorMarginal_factor. rewrite (rd_fac T OP g f Hf). cbn [bind]. rewrite E. cbn [bind]. auto.
Qed.
End Holds.

(** What is claimed of an object [s] whose marginals are exact. *)
Definition good_labelings {T : Type} (OP : oper T) (ACC : accum T) (mult : bool) (small : T -> bool) (close : T -> T -> bool) (vone v0 vzero : T) (maxLabel : nat) (g : gmv T) (s : mp T) : Prop :=
  (** arg gives a best labeling *)
  (exists x, mp_arg T OP ACC mult small close vone v0 vzero maxLabel g s 1 = Ret x /\ optimal OP ACC g x) /\
  (** and nothing but that *)
  (forall N, N <> 1 -> mp_arg T OP ACC mult small close vone v0 vzero maxLabel g s N = Throw) /\
  (** constrainedOptimum gives a best labeling, or a best one with a given label *)
  (exists x, mp_constrainedOptimum T OP ACC mult small vone v0 vzero maxLabel g s [] [] = Ret x /\ optimal OP ACC g x) /\
  (forall v l labels, nth_error (v_labels g) v = Some labels -> l < labels ->
     exists x, mp_constrainedOptimum T OP ACC mult small vone v0 vzero maxLabel g s [v] [l] = Ret x /\ optimal_given OP ACC g [(v, l)] x) /\
  (** modeFromMarginal gives labels of best labelings, together a best one if there is only one *)
  (exists x, mp_modeFromMarginal T OP ACC mult small g s = Ret x /\ labeling g x /\
     (forall v l, nth_error x v = Some l -> exists y, optimal OP ACC g y /\ nth_error y v = Some l) /\
     ((forall y z, optimal OP ACC g y -> optimal OP ACC g z -> y = z) -> optimal OP ACC g x)).

Lemma mapM_each : forall (A B : Type) (f : A -> outcome B) (P : A -> B -> Prop) l, (forall a, In a l -> exists b, f a = Ret b /\ P a b) -> exists r, mapM f l = Ret r /\ Forall2 P l r.
Proof.
  intros A B f P l. induction l as [|a l IH]; intros H; [exists []; split; auto; constructor|]. destruct (H a (or_introl eq_refl)) as (b & Eb & Pb). destruct IH as (r & Er & Pr); [intros; apply H; right; auto|].
  exists (b :: r). cbn [mapM]. rewrite Eb. cbn [bind]. rewrite Er. cbn [bind]. split; auto.
Qed.
Lemma exact_good : forall (T : Type) (fin : T -> Prop) (OP : oper T) (ACC : accum T) mult small close vone v0 vzero maxLabel g un s,
  semiring_laws fin OP ACC -> acc_laws fin OP ACC -> acc_select fin ACC -> close_laws fin ACC close -> fin vone -> small_labels g maxLabel -> wf_gmv g -> fin_gmv fin g -> acyclic g ->
  (forall v, v < length (v_labels g) -> exists out c, mp_marginal T OP ACC mult small g s v = Ret out /\ length out = labels_at g v /\ good T fin OP ACC mult small g un [v] out c) ->
  (forall f, f < length (v_factors g) -> exists out c, mp_factorMarginal T OP ACC mult small g s f = Ret out /\ length out = size_of (map (labels_at g) (MpState.vars T OP g f)) /\ good T fin OP ACC mult small g un (MpState.vars T OP g f) out c) ->
  good_labelings OP ACC mult small close vone v0 vzero maxLabel g s.
Proof.
  intros T fin OP ACC mult small close vone v0 vzero maxLabel g un s SL AL SE CL F1 SM WF FG AC HV HF.
  pose proof (holds_var T fin OP ACC mult small g un s HV) as HM. pose proof (holds_fac T fin OP ACC mult small g un s HF) as HFm.
  assert (ML : forall v, v < length (v_labels g) -> labels_at g v <= maxLabel). { intros v Hv. unfold small_labels in SM. rewrite Forall_forall in SM. apply SM. apply nth_In. auto. }
  split; [|split; [|split; [|split]]].
  - unfold mp_arg. cbn [Nat.eqb negb]. apply (mode_optimal T fin OP ACC SL AL SE close g WF FG vone v0 vzero F1 maxLabel ML _ _ HM HFm AC CL).
  - intros N HN. unfold mp_arg. rewrite (proj2 (Nat.eqb_neq N 1) HN). reflexivity.
  - apply (known_optimal T fin OP ACC SL AL SE close g WF FG vone v0 vzero F1 maxLabel ML _ _ HM HFm AC); [constructor|auto|cbn; lia|cbn; lia].
  - intros v l labels Ev Hl. assert (Hv : v < length (v_labels g)) by (apply nth_error_Some; congruence).
    apply (one_given T fin OP ACC SL AL SE close g WF FG vone v0 vzero F1 maxLabel ML _ _ HM HFm AC v l Hv). unfold labels_at. rewrite (nth_error_nth _ _ _ Ev). auto.
  - destruct (mapM_each _ _ (mode_label T ACC g (mp_marginal_factor T OP ACC mult small g s)) (fun v l => exists x, opt_at T OP ACC g x /\ x v = l) (seq 0 (nvars T g))) as (r & Er & Pr).
    { intros v Hv. apply in_seq in Hv. destruct (mode_label_ok T fin OP ACC SL AL SE g WF FG vone F1 _ HM v) as (l & x & E1 & OX & XV); [unfold nvars in Hv; lia|]. eauto. }
    assert (LR : length r = length (v_labels g)). { clear - Pr. unfold nvars in Pr. revert Pr. generalize 0. generalize (length (v_labels g)). intros k. revert r. induction k as [|k IH]; intros r a H; inversion H; subst; cbn [length]; auto. f_equal. eapply IH; eauto. }
    assert (PN : forall v, v < length (v_labels g) -> exists x, opt_at T OP ACC g x /\ x v = nth v r 0).
    { clear - Pr. assert (G : forall a, Forall2 (fun v l => exists x, opt_at T OP ACC g x /\ x v = l) (seq a (nvars T g)) r -> forall v, v < nvars T g -> exists x, opt_at T OP ACC g x /\ x (a + v) = nth v r 0).
      { generalize (nvars T g). clear Pr. intros k. revert r. induction k as [|k IH]; intros r a H v Hv; [lia|]. inversion H as [|? b ? r' H1 H2]; subst. destruct v as [|v]; [rewrite Nat.add_0_r; auto|]. rewrite Nat.add_succ_r. apply (IH r' (S a)); auto. lia. }
      apply (G 0 Pr). }
    assert (OL : forall x, opt_at T OP ACC g x -> optimal OP ACC g (map x (seq 0 (length (v_labels g))))).
    { intros x OX. apply (opt_list T OP ACC g _ x); auto; [apply okl_labeling; apply OX|]. intros v Hv. rewrite fun_list; auto. }
    assert (LB : labeling g r). { apply (list_okl T g). split; auto. intros v Hv. destruct (PN v Hv) as (x & OX & <-). apply OX. auto. }
    exists r. split; [exact Er|]. split; auto. split.
    + intros v l Ev. assert (Hv : v < length (v_labels g)) by (rewrite <- LR; apply nth_error_Some; congruence). destruct (PN v Hv) as (x & OX & XV). exists (map x (seq 0 (length (v_labels g)))). split; auto.
      rewrite (nth_error_nth' _ 0) by (rewrite map_length, seq_length; auto). rewrite fun_list by auto. rewrite XV. f_equal. apply nth_error_nth. auto.
    + intros U. destruct (opt_exists T fin OP ACC SL AL SE g WF FG) as (x0 & OX0).
      assert (Q : r = map x0 (seq 0 (length (v_labels g)))).
      { apply nth_ext with (d := 0) (d' := 0); [rewrite map_length, seq_length; auto|]. intros v Hv. rewrite LR in Hv. destruct (PN v Hv) as (x & OX & <-). rewrite <- (fun_list T g x v Hv). f_equal. apply U; auto. }
      rewrite Q. auto.
Qed.

(** C47: after one complete inference on a model without cycles, whatever came before, arg returns an optimal labeling
    (also where several labelings are optimal), and so do the other functions that make labelings from marginals. *)
Theorem C47_arg : forall (T : Type) (fin : T -> Prop) (OP : oper T) (ACC : accum T) mult small wmean nonzero dist gtv zero close vone v0 vzero maxLabel g maxSteps bound damping sequential order norm acyc ops,
  semiring_laws fin OP ACC -> acc_laws fin OP ACC -> acc_select fin ACC -> close_laws fin ACC close -> fin vone -> small_labels g maxLabel ->
  nonzero zero = false -> wf_gmv g -> fin_gmv fin g -> acyclic g -> acyc <> TFalse ->
  (norm = TTrue -> division_laws fin OP mult small) ->
  exists s, mp_run T OP ACC mult small wmean nonzero dist gtv zero g maxSteps bound damping sequential order acyc norm (ops ++ [MpInfer never]) = Ret s /\
  good_labelings OP ACC mult small close vone v0 vzero maxLabel g s.
Proof.
  intros T fin OP ACC mult small wmean nonzero dist gtv zero close vone v0 vzero maxLabel g maxSteps bound damping sequential order norm acyc ops SL AL SE CL F1 SM ZN WF FG AC NA DL.
  destruct (run_exact T fin OP ACC mult small wmean nonzero dist gtv zero g maxSteps bound damping sequential order SL ZN WF FG AC norm DL acyc ops NA) as (s & E & H1 & H2).
  exists s. split; auto. eapply exact_good; eauto.
Qed.
Print Assumptions C47_arg.

(** C47: the same with the schedules that work in rounds, if there are enough of them. *)
Theorem C47_arg_rounds : forall (T : Type) (fin : T -> Prop) (OP : oper T) (ACC : accum T) mult small wmean nonzero dist gtv zero close vone v0 vzero maxLabel g maxSteps bound damping sequential order norm ops,
  semiring_laws fin OP ACC -> acc_laws fin OP ACC -> acc_select fin ACC -> close_laws fin ACC close -> fin vone -> small_labels g maxLabel ->
  nonzero zero = false -> nonzero damping = false -> wf_gmv g -> fin_gmv fin g -> acyclic g ->
  (norm = TTrue -> division_laws fin OP mult small) -> enough_rounds g dist gtv zero bound sequential order maxSteps ->
  exists s, mp_run T OP ACC mult small wmean nonzero dist gtv zero g maxSteps bound damping sequential order TFalse norm (ops ++ [MpInfer never]) = Ret s /\
  good_labelings OP ACC mult small close vone v0 vzero maxLabel g s.
Proof.
  intros T fin OP ACC mult small wmean nonzero dist gtv zero close vone v0 vzero maxLabel g maxSteps bound damping sequential order norm ops SL AL SE CL F1 SM ZN DN WF FG AC DL EN.
  destruct (rounds_exact T fin OP ACC mult small wmean nonzero dist gtv zero g maxSteps bound damping sequential order norm ops SL ZN DN WF FG AC DL EN) as (s & E & H1 & H2).
  exists s. split; auto. eapply exact_good; eauto.
Qed.
Print Assumptions C47_arg_rounds.

(** ** The laws hold: minima of sums of whole numbers, values closer than 10 being taken as equal *)
Definition closeE (a b : ext) : bool := match a, b with Fin x, Fin y => (Z.abs (x - y) <? 10)%Z | _, _ => false end.
Lemma closeE_laws : close_laws is_fin MinimizerE closeE.
Proof.
  split.
  - intros [x| | |] [y| | |] [z| | |]; cbn; try tauto. unfold Minimizer_bop. cbn. intros _ _ _. rewrite Z.ltb_ge, !Z.ltb_lt. lia.
  - intros [x| | |] [z| | |]; cbn; try tauto. unfold Minimizer_bop. cbn. intros _ _. rewrite !Z.ltb_ge, !Z.ltb_lt. lia.
Qed.
Lemma fin_finite : forall a, is_fin a -> finite a.
Proof. intros [x| | |] H; cbn in H; try tauto. exists x. auto. Qed.
Lemma min_acc : acc_laws is_fin AdderE MinimizerE.
Proof. destruct minimizerE_laws as [A B C D]. split; intros; [apply A|eapply B; eauto|eapply C; eauto|apply D]; auto using fin_finite.
  all: eapply fin_finite; eauto.
Qed.
Lemma min_select : acc_select is_fin MinimizerE.
Proof. destruct minimizerE_select as [A B]. split; intros; [apply A|apply B]; auto using fin_finite. Qed.

(** A chain of three variables: the first two should differ (cost 20), the last two should agree (cost 300). Two labelings are best. *)
Definition chain_gm (a b : Z) (f : nat -> nat -> bool) : gmv ext := mkGmv [2; 2; 2]
  [([0; 1], fun c => Fin (if f (nth 0 c 0) (nth 1 c 0) then 0 else a)); ([1; 2], fun c => Fin (if Nat.eqb (nth 0 c 0) (nth 1 c 0) then 0 else b))].
Definition differ (a b : nat) : bool := negb (Nat.eqb a b).
Lemma chain_wf : forall a b f, wf_gmv (chain_gm a b f).
Proof. intros. split; [repeat constructor; cbn; lia|]. repeat constructor. Qed.
Lemma chain_acyclic : forall a b f, acyclic (chain_gm a b f).
Proof.
  intros a b f. destruct (isAcyclic_spec (fgraph_of ext (chain_gm a b f)) (wf_graph ext AdderE _ (chain_wf a b f))) as (r & E & H). unfold acyclic. apply H.
  assert (X : isAcyclic (fgraph_of ext (chain_gm a b f)) = Ret true) by (vm_compute; reflexivity). congruence.
Qed.
Lemma chain_fin : forall a b f, fin_gmv is_fin (chain_gm a b f).
Proof. unfold fin_gmv. repeat constructor; intros; cbn; destruct (f _ _), (_ =? _); exact I. Qed.
Definition chain_run (g : gmv ext) (norm : tribool) (ops : list mp_op) : outcome (mp ext) :=
  mp_run ext AdderE MinimizerE false (fun _ => false) (fun _ a _ => a) (fun _ => false) (fun _ _ => Fin 0) (fun _ _ => false) (Fin 0)
         g 10 (Fin 0) (Fin 0) false [0; 1; 2] TMaybe norm ops.
Definition chain_arg (g : gmv ext) (s : mp ext) : outcome (list nat) :=
  mp_arg ext AdderE MinimizerE false (fun _ => false) closeE (Fin 1) (Fin 0) (Fin 0) 1000 g s 1.
Definition chain_constrained (g : gmv ext) (s : mp ext) (vs ls : list nat) : outcome (list nat) :=
  mp_constrainedOptimum ext AdderE MinimizerE false (fun _ => false) (Fin 1) (Fin 0) (Fin 0) 1000 g s vs ls.
Definition chain_modes (g : gmv ext) (s : mp ext) : outcome (list nat) := mp_modeFromMarginal ext AdderE MinimizerE false (fun _ => false) g s.

(** The hypotheses hold for the chain, with normalized messages and two inferences. *)
Example C47_chain : exists s, chain_run (chain_gm 20 300 differ) TTrue [MpInfer (Nat.eqb 0); MpInfer never] = Ret s /\
  good_labelings AdderE MinimizerE false (fun _ => false) closeE (Fin 1) (Fin 0) (Fin 0) 1000 (chain_gm 20 300 differ) s.
Proof.
  apply (C47_arg ext is_fin AdderE MinimizerE false (fun _ => false) (fun _ a _ => a) (fun _ => false) (fun _ _ => Fin 0) (fun _ _ => false) (Fin 0) closeE (Fin 1) (Fin 0) (Fin 0) 1000
    (chain_gm 20 300 differ) 10 (Fin 0) (Fin 0) false [0; 1; 2] TTrue TMaybe [MpInfer (Nat.eqb 0)]);
    auto using min_sum_laws, min_acc, min_select, closeE_laws, chain_wf, chain_acyclic, chain_fin, min_sum_division; try exact I; try discriminate.
  repeat constructor; cbn; lia.
Qed.
(** What the functions return there. *)
Example C47_chain_values : exists s, chain_run (chain_gm 20 300 differ) TTrue [MpInfer (Nat.eqb 0); MpInfer never] = Ret s /\
  chain_arg (chain_gm 20 300 differ) s = Ret [0; 1; 1] /\ chain_constrained (chain_gm 20 300 differ) s [2] [0] = Ret [1; 0; 0] /\ chain_modes (chain_gm 20 300 differ) s = Ret [0; 0; 0].
Proof.
  destruct C47_chain as (s & E & _). exists s. split; auto.
  assert (Q : (t <- chain_run (chain_gm 20 300 differ) TTrue [MpInfer (Nat.eqb 0); MpInfer never] ;; Ret (chain_arg (chain_gm 20 300 differ) t, chain_constrained (chain_gm 20 300 differ) t [2] [0], chain_modes (chain_gm 20 300 differ) t))
    = Ret (Ret [0; 1; 1], Ret [1; 0; 0], Ret [0; 0; 0])) by (vm_compute; reflexivity).
  rewrite E in Q. cbn [bind] in Q. injection Q as Q1 Q2 Q3. auto.
Qed.

(** modeFromMarginal does not always give a best labeling: several labelings can be best. *)
Theorem C47_mode_marginal_refuted : ~ (forall g, wf_gmv g -> fin_gmv is_fin g -> acyclic g ->
  exists s x, chain_run g TTrue [MpInfer never] = Ret s /\ chain_modes g s = Ret x /\ optimal AdderE MinimizerE g x).
Proof.
  intros H. destruct (H (chain_gm 20 300 differ) (chain_wf _ _ _) (chain_fin _ _ _) (chain_acyclic _ _ _)) as (s & x & E & M & [_ O]).
  assert (Q : (t <- chain_run (chain_gm 20 300 differ) TTrue [MpInfer never] ;; chain_modes (chain_gm 20 300 differ) t) = Ret [0; 0; 0]) by (vm_compute; reflexivity).
  rewrite E in Q. cbn [bind] in Q. rewrite M in Q. injection Q as ->. specialize (O [0; 1; 1]). assert (L : labeling (chain_gm 20 300 differ) [0; 1; 1]) by (repeat constructor). specialize (O L). vm_compute in O. discriminate.
Qed.
Print Assumptions C47_mode_marginal_refuted.

(** constrainedOptimum with two given labels does not always give a best labeling with these labels: the label of a variable
    between them follows one of them alone. *)
Theorem C47_two_labels_refuted : ~ (forall g v w l k, wf_gmv g -> fin_gmv is_fin g -> acyclic g -> v <> w ->
  v < length (v_labels g) -> w < length (v_labels g) -> l < labels_at g v -> k < labels_at g w ->
  exists s x, chain_run g TTrue [MpInfer never] = Ret s /\ chain_constrained g s [v; w] [l; k] = Ret x /\ optimal_given AdderE MinimizerE g [(v, l); (w, k)] x).
Proof.
  intros H. destruct (H (chain_gm 300 20 Nat.eqb) 0 2 0 1 (chain_wf _ _ _) (chain_fin _ _ _) (chain_acyclic _ _ _)) as (s & x & E & M & [_ [_ O]]); cbn; try lia.
  assert (Q : (t <- chain_run (chain_gm 300 20 Nat.eqb) TTrue [MpInfer never] ;; chain_constrained (chain_gm 300 20 Nat.eqb) t [0; 2] [0; 1]) = Ret [0; 1; 1]) by (vm_compute; reflexivity).
  rewrite E in Q. cbn [bind] in Q. rewrite M in Q. injection Q as ->. specialize (O [0; 0; 1]). assert (L : labeling (chain_gm 300 20 Nat.eqb) [0; 0; 1]) by (repeat constructor). specialize (O L ltac:(repeat constructor)). vm_compute in O. discriminate.
Qed.
Print Assumptions C47_two_labels_refuted.

(** arg before infer is not always defined: with infinite values it may read the first entry of an empty labeling. *)
Definition hard_gm : gmv ext := mkGmv [2; 2] [([0; 1], fun c => if Nat.eqb (nth 0 c 0) 1 then Fin 0 else PInf)].
Theorem C47_arg_undefined_refuted : ~ (forall g s, wf_gmv g -> acyclic g -> chain_run g TFalse [] = Ret s -> chain_arg g s <> Undef).
Proof.
  intros H. assert (W : wf_gmv hard_gm) by (split; repeat constructor; cbn; lia).
  assert (A : acyclic hard_gm).
  { destruct (isAcyclic_spec (fgraph_of ext hard_gm) (wf_graph ext AdderE hard_gm W)) as (r & E & X). unfold acyclic. apply X. assert (Y : isAcyclic (fgraph_of ext hard_gm) = Ret true) by (vm_compute; reflexivity). congruence. }
  destruct (chain_run hard_gm TFalse []) as [s| | |] eqn:E; try (vm_compute in E; discriminate).
  apply (H hard_gm s W A E).
  assert (Q : (t <- chain_run hard_gm TFalse [] ;; chain_arg hard_gm t) = Undef) by (vm_compute; reflexivity). rewrite E in Q. exact Q.
Qed.
Print Assumptions C47_arg_undefined_refuted.
