(** C18: ICM ends, never worsens the labeling and stops in a local optimum. *)
From Verif Require Import Base Values GmView GmViewSpec ShapeSpec ShapeProofs GmViewProofs OperationsModel GmViewProps
  MovemakerModel MovemakerSpec MovemakerProofs MovemakerSearch MovemakerProps IcmModel IcmSpec IcmProofs.

Section Props.
Variable T : Type.
Variable OP : oper T.
Variable mult : bool.
Variable recompute : T -> bool.
Variable ACC : accum T.
Variable fin : T -> Prop.
Hypothesis OL : op_laws fin OP.
Hypothesis AL : acc_laws fin OP ACC.
Variable g : gmv T.
Hypothesis W : wf_gmv g.
Hypothesis FG : fin_gmv fin g.

(** An ICM object after construction and some calls. *)
Definition icrun (fuel : nat) (factor : bool) (startPoint : list nat) (ops : list icop) : outcome (mm T) :=
  m <- icm_new T OP g startPoint ;; foldM (icstep OP mult recompute ACC fuel g factor startPoint) ops m.

Lemma start_ok_cases : forall startPoint, start_legal g startPoint ->
  labeling g startPoint /\ start_of g startPoint = startPoint /\ (length startPoint =? length (v_labels g)) = true \/
  startPoint = [] /\ start_of g startPoint = repeat 0 (length (v_labels g)) /\ (length startPoint =? length (v_labels g)) = false.
Proof.
  intros sp [->|L].
  - destruct (v_labels g) as [|a l] eqn:E; [left|right; unfold start_of; rewrite E; auto]. split; [unfold labeling; rewrite E; constructor|]. unfold start_of. rewrite E. auto.
  - left. split; auto. rewrite (labeling_length _ g _ L). split; [|apply Nat.eqb_refl]. unfold start_of. destruct sp; auto.
    apply labeling_length in L. rewrite <- L. auto.
Qed.
Lemma icm_new_ok : forall sp, start_legal g sp -> exists m, icm_new T OP g sp = Ret m /\ mm_ok T OP g m /\ mm_state m = start_of g sp.
Proof.
  intros sp H. unfold icm_new. destruct (mm_new_ok T OP g W) as (m & E & O & S). rewrite E. cbn [bind].
  destruct (start_ok_cases sp H) as [(L & E1 & E2)|(E0 & E1 & E2)]; rewrite E1, E2.
  - apply (mm_initialize_ok T OP g W); auto.
  - subst sp. cbn. exists m. auto.
Qed.
Lemma icm_reset_ok : forall sp m, start_legal g sp -> mm_ok T OP g m ->
  exists m', icm_reset T OP g sp m = Ret m' /\ mm_ok T OP g m' /\ mm_state m' = start_of g sp.
Proof.
  intros sp m H O. unfold icm_reset. destruct (start_ok_cases sp H) as [(L & E1 & E2)|(E0 & E1 & E2)]; rewrite E1, E2.
  - apply (mm_initialize_ok T OP g W); auto.
  - subst sp. cbn [length Nat.eqb negb]. apply (mm_reset_ok T OP g W); auto.
Qed.
Lemma icrun_ok : forall fuel factor sp ops, S (rounds g) < fuel -> start_legal g sp -> Forall (iclegal g) ops ->
  exists m, icrun fuel factor sp ops = Ret m /\ mm_ok T OP g m.
Proof.
  intros fuel factor sp ops Hf HS HO. unfold icrun. destruct (icm_new_ok sp HS) as (m & E & O & _). rewrite E. cbn [bind]. clear E.
  revert m O. induction HO as [|o ops Ho HO IH]; intros m O; [exists m; auto|]. cbn [foldM]. destruct o as [stop| |x]; cbn [icstep].
  - destruct (icm_infer_ok T OP mult recompute ACC fin OL AL g W FG stop fuel factor m Hf O) as (c & E & O1 & _). rewrite E. cbn [bind]. auto.
  - destruct (icm_reset_ok sp m HS O) as (m' & E & O1 & _). rewrite E. cbn [bind]. auto.
  - destruct (mm_initialize_ok T OP g W m x O Ho) as (m' & E & O1 & _). rewrite E. cbn [bind]. auto.
Qed.

(** For every history and every visitor, infer ends; the labeling it leaves is legal, its value() is the value of
    that labeling, and it is the previous labeling or strictly better; arg returns it.  If the visitor never asks to
    stop, then no single variable can be relabeled to improve it, in both modes. *)
Theorem C18_infer : forall fuel factor startPoint ops stop, S (rounds g) < fuel -> start_legal g startPoint -> Forall (iclegal g) ops ->
  exists m c x, icrun fuel factor startPoint ops = Ret m /\ icm_infer T OP mult recompute ACC g stop fuel factor m = Ret c /\
    icm_arg T g c = Ret x /\ labeling g x /\ mm_value (ic_mm c) = total OP g x /\
    labeling g (mm_state m) /\ mm_value m = total OP g (mm_state m) /\ not_worse OP ACC g (mm_state m) x /\
    ((forall k, stop k = false) -> locally_optimal OP ACC g x).
Proof.
  intros fuel factor sp ops stop Hf HS HO. destruct (icrun_ok fuel factor sp ops Hf HS HO) as (m & E & O).
  destruct (icm_infer_ok T OP mult recompute ACC fin OL AL g W FG stop fuel factor m Hf O) as (c & E1 & O1 & R & S & Q).
  exists m, c, (mm_state (ic_mm c)). split; auto. split; auto. pose proof O1 as (_ & L1 & _ & V1). pose proof O as (_ & L & _ & V).
  split; [|split; [auto|split; [auto|split; [auto|split; [auto|split; [exact R|]]]]]].
  - unfold icm_arg. rewrite mapM_rd; [|apply Forall_forall; intros v Hv; apply in_seq in Hv; rewrite (labeling_length _ g _ L1); lia].
    rewrite <- (labeling_length _ g _ L1). unfold at_vars. rewrite map_nth_seq. auto.
  - intros NS v s Hv Hs. apply Q; auto.
Qed.

(** Construction starts at the given point or at the all-zero labeling; reset returns there; setStartingPoint sets
    the labeling.  Any other number of labels is refused. *)
Theorem C18_start : forall startPoint, start_legal g startPoint -> exists m,
  icrun 0 false startPoint [] = Ret m /\ mm_state m = start_of g startPoint /\
  forall fuel factor ops, S (rounds g) < fuel -> Forall (iclegal g) ops -> exists m',
    icrun fuel factor startPoint (ops ++ [IcReset]) = Ret m' /\ mm_state m' = start_of g startPoint /\ mm_value m' = total OP g (start_of g startPoint) /\
    forall x, labeling g x -> exists m'', icrun fuel factor startPoint (ops ++ [IcSet x]) = Ret m'' /\ mm_state m'' = x /\ mm_value m'' = total OP g x.
Proof.
  intros sp HS. destruct (icm_new_ok sp HS) as (m & E & O & S0). exists m. unfold icrun at 1. rewrite E. cbn [bind foldM]. split; auto. split; auto.
  intros fuel factor ops Hf HO. destruct (icrun_ok fuel factor sp ops Hf HS HO) as (m1 & E1 & O1). unfold icrun in *. rewrite E in *. cbn [bind] in *.
  destruct (icm_reset_ok sp m1 HS O1) as (m2 & E2 & O2 & S2). exists m2. rewrite foldM_app, E1. cbn [bind foldM icstep]. rewrite E2. cbn [bind].
  split; auto. split; auto. split; [rewrite <- S2; apply O2|]. intros x Lx.
  destruct (mm_initialize_ok T OP g W m1 x O1 Lx) as (m3 & E3 & O3 & S3). exists m3. rewrite foldM_app, E1. cbn [bind foldM icstep]. rewrite E3. cbn [bind].
  split; auto. split; auto. rewrite <- S3. apply O3.
Qed.
Theorem C18_start_refused : forall startPoint, startPoint <> [] -> length startPoint <> length (v_labels g) -> icm_new T OP g startPoint = Throw.
Proof.
  intros sp H1 H2. unfold icm_new. destruct (mm_new_ok T OP g W) as (m & E & _). rewrite E. cbn [bind].
  rewrite (proj2 (Nat.eqb_neq _ _) H2). destruct sp; [congruence|]. auto.
Qed.
End Props.
Print Assumptions C18_infer.
Print Assumptions C18_start.
Print Assumptions C18_start_refused.

(** The hypotheses hold for the model of C15; here is a run that moves. *)
Example C18_case : start_legal ex_g [1; 2; 0] /\ Forall (iclegal ex_g) [IcSet [0; 1; 1]; IcInfer (fun _ => true); IcReset] /\ rounds ex_g = 12 /\
  (m <- icrun ext AdderE false (fun _ => false) MinimizerE ex_g 14 true [1; 2; 0] [IcSet [0; 1; 1]; IcInfer (fun _ => true); IcReset] ;;
   c <- icm_infer ext AdderE false (fun _ => false) MinimizerE ex_g (fun _ => false) 14 true m ;;
   x <- icm_arg ext ex_g c ;; Ret (mm_state m, mm_value m, x, mm_value (ic_mm c))) = Ret ([1; 2; 0], Fin 12, [0; 0; 0], Fin 0).
Proof.
  split; [right; repeat constructor|]. split; [repeat constructor|]. split; [reflexivity|]. vm_compute. reflexivity.
Qed.

(** In FACTOR mode the labeling left need not be optimal for the variables of each factor: moving the variables of one
    factor reopens only the factors that contain a changed variable, not those that share a factor with one. *)
Definition chain : gmv ext := mkGmv [2; 2; 2; 2]
  [ ([0; 1], fun l => if nth 0 l 0 =? nth 1 l 0 then Fin 0 else Fin 10);
    ([1; 2], fun l => if nth 0 l 0 =? nth 1 l 0 then Fin 0 else Fin 5);
    ([2; 3], fun l => if nth 0 l 0 =? nth 1 l 0 then (if nth 0 l 0 =? 0 then Fin 0 else Fin (-8)) else Fin 10) ].
Theorem C18_factor_mode_refuted : exists g m c, wf_gmv g /\ fin_gmv finite g /\ icrun ext AdderE false (fun _ => false) MinimizerE g 18 true [] [] = Ret m /\
  icm_infer ext AdderE false (fun _ => false) MinimizerE g (fun _ => false) 18 true m = Ret c /\ S (rounds g) < 18 /\
  ~ factor_optimal AdderE MinimizerE g (mm_state (ic_mm c)).
Proof.
  exists chain. eexists. eexists. split; [split; cbn; repeat constructor; cbn; lia|]. split.
  { repeat constructor; intros x H; cbn; repeat (destruct (_ =? _)); eexists; reflexivity. }
  split; [vm_compute; reflexivity|]. split; [vm_compute; reflexivity|]. split; [cbn; lia|].
  intros H. specialize (H (nth 0 (v_factors chain) ([], fun _ => Fin 0)) [1; 1]). cbn in H.
  discriminate H; [left; reflexivity|repeat constructor].
Qed.
Print Assumptions C18_factor_mode_refuted.
