(** C39: the Lazy Flipper ends, never worsens the labeling, and finds a labeling that no change of few variables improves. *)
From Verif Require Import Base Values GmView GmViewSpec ShapeSpec ShapeProofs GmViewProofs OperationsModel GmViewProps
  MovemakerModel MovemakerSpec MovemakerProofs MovemakerSearch MovemakerProps IcmModel IcmSpec IcmProofs
  LazyFlipperModel LazyFlipperSpec LazyFlipperForest LazyFlipperEnum LazyFlipperSets LazyFlipperProofs LazyFlipperLoops.

Section Props.
Variable T : Type.
Variable OP : oper T.
Variable mult : bool.
Variable recompute : T -> bool.
Variable ACC : accum T.
Variable fin : T -> Prop.
Hypothesis OL : op_laws fin OP.
Hypothesis AL : acc_laws fin OP ACC.
Variable g : gmv T.
Hypothesis W : wf_gmv g.
Hypothesis FG : fin_gmv fin g.
Notation n := (length (v_labels g)).

(** A LazyFlipper object after construction and some calls. *)
Definition lfrun (fuel : nat) (max : nat) (startPoint : list nat) (mode : option bool) (ops : list lfop) : outcome (lf T) :=
  s <- lf_new T OP g max startPoint mode ;; foldM (lfstep OP mult recompute ACC g fuel) ops s.

Lemma arg_ok : forall s, labeling g (mm_state (lf_mm s)) -> lf_arg T g s = Ret (mm_state (lf_mm s)).
Proof.
  intros s L1. unfold lf_arg. rewrite mapM_rd; [|apply Forall_forall; intros v Hv; apply in_seq in Hv; rewrite (labeling_length _ g _ L1); lia].
  rewrite <- (labeling_length _ g _ L1). unfold at_vars. rewrite map_nth_seq. auto.
Qed.
Lemma multi_fits : forall (s : lf T) mode, lf_multi s = mode -> mode_fits g mode ->
  Forall (fun k => if multiLabel T g s then 2 <= k else k = 2) (v_labels g).
Proof.
  intros s mode E H. unfold multiLabel. rewrite E. destruct mode as [[]|]; auto. destruct (existsb (fun k => negb (k =? 2)) (v_labels g)) eqn:X; auto.
  apply Forall_forall. intros k Hk. destruct (Nat.eqb_spec k 2) as [|N]; auto. exfalso.
  rewrite <- not_true_iff_false in X. apply X. apply existsb_exists. exists k. split; auto. apply negb_true_iff, Nat.eqb_neq. auto.
Qed.

Lemma lf_new_ok : forall max sp mode, 1 <= max -> v_labels g <> [] -> lfstart_legal g sp ->
  exists adj s, adj_ok T g adj /\ lf_new T OP g max sp mode = Ret s /\ inv T OP g adj s /\ mm_state (lf_mm s) = lfstart g sp /\ lf_max s = max /\ lf_multi s = mode /\
    lf_forest s = fo_empty /\ no_tags (lf_act0 s) /\ no_tags (lf_act1 s).
Proof.
  intros max sp mode HM HN HS. destruct (variableAdjacencyList_ok T g W (fun _ => false)) as (adj & EA & HA).
  assert (EA' : lf_adjacency T g = Ret adj) by exact EA. destruct (tg_new_ok n) as [TN NT]. pose proof HA as [LA' _].
  destruct (mm_new_ok T OP g W) as (m & E & O & S0). unfold lf_new, lf_setMax. rewrite E. cbn [bind].
  destruct (Nat.eqb_spec n 0) as [Z|_]; [apply length_zero_iff_nil in Z; congruence|]. destruct (Nat.ltb_spec max 1); [lia|]. cbn [bind]. rewrite EA'. cbn [bind].
  assert (I : forall m, mm_ok T OP g m -> inv T OP g adj (mkLf adj m (tg_append (mkTagging [] []) n) (tg_append (mkTagging [] []) n) fo_empty max mode)).
  { intros m' O'. split; auto. apply wf_empty. auto. }
  unfold lfstart. destruct (Nat.eqb_spec (length sp) n) as [EL|NL].
  - destruct (mm_initialize_ok T OP g W m sp O (HS EL)) as (m' & E' & O' & S'). rewrite E'. cbn [bind]. exists adj. eexists. split; auto. split; [reflexivity|].
    split; [apply I; auto|]. auto 10.
  - exists adj. eexists. split; auto. split; [reflexivity|]. split; [apply I; auto|]. auto 10.
Qed.

Lemma lf_infer_ok : forall adj s mode stop, adj_ok T g adj -> mode_fits g mode -> lf_multi s = mode -> inv T OP g adj s ->
  exists F s', (forall fuel, F <= fuel -> lf_infer T OP mult recompute ACC g stop fuel s = Ret s') /\
    inv T OP g adj s' /\ lf_max s' = lf_max s /\ lf_multi s' = mode /\ not_worse OP ACC g (mm_state (lf_mm s)) (mm_state (lf_mm s')) /\
    ((forall k, stop k = false) -> lf_forest s = fo_empty -> no_tags (lf_act0 s) -> no_tags (lf_act1 s) ->
       forall R, canon n adj R -> length R <= lf_max s -> set_opt OP ACC g (mm_state (lf_mm s')) R).
Proof.
  intros adj s mode stop HA HM EM I. unfold lf_infer.
  destruct (lengths_ok T OP mult recompute ACC fin OL AL g W FG adj HA (multiLabel T g s) (multi_fits s mode EM HM) stop (S n - 1) 1 s 0 (le_n _) (le_n _) I)
    as (F & s' & E & I' & [C1 C2] & R & J); [lia|].
  exists F, s'. split; auto. split; auto. split; auto. split; [congruence|]. split; [exact R|]. intros NST EF T0 T1. apply J; auto.
  - rewrite EF. apply complete_empty. apply HA.
  - intros P (k & b & C & i & X & _). rewrite EF in X. destruct k; discriminate.
  - apply (in_max _ _ _ _ _ I).
Qed.

Lemma lfsteps_ok : forall adj mode ops, adj_ok T g adj -> mode_fits g mode -> Forall (lflegal g) ops -> forall s, lf_multi s = mode -> inv T OP g adj s ->
  exists F s', (forall fuel, F <= fuel -> foldM (lfstep OP mult recompute ACC g fuel) ops s = Ret s') /\ inv T OP g adj s' /\ lf_multi s' = mode /\
    (Forall not_infer ops -> lf_forest s' = lf_forest s /\ lf_act0 s' = lf_act0 s /\ lf_act1 s' = lf_act1 s /\ lf_max s' = max_after (lf_max s) ops /\
       mm_state (lf_mm s') = start_after (mm_state (lf_mm s)) ops).
Proof.
  intros adj mode ops HA HM HL. induction HL as [|o ops Ho HL IH]; intros s EM I.
  { exists 0, s. split; auto. split; auto. split; auto. }
  destruct o as [stop| |x|k]; cbn [lflegal] in Ho.
  - destruct (lf_infer_ok adj s mode stop HA HM EM I) as (F & s1 & E & I1 & C1 & C2 & _). destruct (IH s1 C2 I1) as (F' & s' & E' & I' & C' & _).
    exists (Nat.max F F'), s'. split; [intros fuel Hf; cbn [foldM lfstep]; rewrite E by lia; cbn [bind]; apply E'; lia|]. split; auto. split; auto.
    intros X. inversion X as [|? ? X1 X2]. destruct X1.
  - destruct (IH s EM I) as (F' & s' & E' & I' & C' & J). exists F', s'. split; auto. split; auto. split; auto. intros X. inversion X as [|? ? X1 X2]. auto.
  - destruct (mm_initialize_ok T OP g W (lf_mm s) x (in_mm _ _ _ _ _ I) Ho) as (m' & E1 & O1 & S1).
    destruct (IH (with_mm T s m') EM (inv_with_mm _ _ _ _ _ _ I O1)) as (F' & s' & E' & I' & C' & J). exists F', s'.
    split; [intros fuel Hf; cbn [foldM lfstep]; unfold lf_setStart; rewrite E1; cbn [bind]; auto|]. split; auto. split; auto.
    intros X. inversion X as [|? ? X1 X2]. specialize (J X2). cbn [with_mm lf_mm lf_max lf_forest lf_act0 lf_act1] in J. rewrite S1 in J. exact J.
  - destruct (IH (mkLf (lf_adj s) (lf_mm s) (lf_act0 s) (lf_act1 s) (lf_forest s) k (lf_multi s)) EM) as (F' & s' & E' & I' & C' & J).
    { destruct I as [A1 A2 A3 A4 A5 A6]. split; auto. }
    exists F', s'. split; [intros fuel Hf; cbn [foldM lfstep]; unfold lf_setMax; destruct (Nat.ltb_spec k 1); [lia|]; cbn [bind]; auto|]. split; auto. split; auto.
    intros X. inversion X as [|? ? X1 X2]. specialize (J X2). exact J.
Qed.

(** For every history of legal calls and every visitor, infer ends; the labeling it leaves is legal, value() is the
    value of that labeling, and it is the previous labeling or strictly better. *)
Theorem C39_infer : forall max startPoint mode ops stop, 1 <= max -> v_labels g <> [] -> lfstart_legal g startPoint -> mode_fits g mode -> Forall (lflegal g) ops ->
  exists F s s' x x', (forall fuel, F <= fuel -> lfrun fuel max startPoint mode ops = Ret s /\ lf_infer T OP mult recompute ACC g stop fuel s = Ret s') /\
    lf_arg T g s = Ret x /\ labeling g x /\ lf_value s = total OP g x /\
    lf_arg T g s' = Ret x' /\ labeling g x' /\ lf_value s' = total OP g x' /\ not_worse OP ACC g x x'.
Proof.
  intros max sp mode ops stop H1 H2 H3 H4 H5. destruct (lf_new_ok max sp mode H1 H2 H3) as (adj & s0 & HA & E0 & I0 & _ & _ & M0 & _).
  destruct (lfsteps_ok adj mode ops HA H4 H5 s0 M0 I0) as (F1 & s & E1 & I1 & M1 & _).
  destruct (lf_infer_ok adj s mode stop HA H4 M1 I1) as (F2 & s' & E2 & I2 & _ & _ & R & _).
  exists (Nat.max F1 F2), s, s', (mm_state (lf_mm s)), (mm_state (lf_mm s')). split.
  { intros fuel Hf. unfold lfrun. rewrite E0. cbn [bind]. split; [apply E1; lia|apply E2; lia]. }
  pose proof (in_mm _ _ _ _ _ I1) as (_ & L1 & _ & V1). pose proof (in_mm _ _ _ _ _ I2) as (_ & L2 & _ & V2).
  split; [apply arg_ok; auto|]. split; auto. split; auto. split; [apply arg_ok; auto|]. auto.
Qed.

(** The first infer of an object, if the visitor does not stop it, starts at the starting point set last and finds a
    labeling that no labeling differing in at most maxSubgraphSize variables improves. *)
Theorem C39_neighbourhood : forall max startPoint mode ops stop, 1 <= max -> v_labels g <> [] -> lfstart_legal g startPoint -> mode_fits g mode ->
  Forall (lflegal g) ops -> Forall not_infer ops -> (forall k, stop k = false) ->
  exists F s s' x', (forall fuel, F <= fuel -> lfrun fuel max startPoint mode ops = Ret s /\ lf_infer T OP mult recompute ACC g stop fuel s = Ret s') /\
    lf_arg T g s = Ret (start_after (lfstart g startPoint) ops) /\ lf_arg T g s' = Ret x' /\ labeling g x' /\
    not_worse OP ACC g (start_after (lfstart g startPoint) ops) x' /\
    forall y, labeling g y -> distance x' y <= max_after max ops -> a_bop ACC (total OP g y) (total OP g x') = false.
Proof.
  intros max sp mode ops stop H1 H2 H3 H4 H5 H6 H7. destruct (lf_new_ok max sp mode H1 H2 H3) as (adj & s0 & HA & E0 & I0 & S0 & X0 & M0 & EF & T0 & T1).
  destruct (lfsteps_ok adj mode ops HA H4 H5 s0 M0 I0) as (F1 & s & E1 & I1 & M1 & J1). destruct (J1 H6) as (K1 & K2 & K3 & K4 & K5).
  destruct (lf_infer_ok adj s mode stop HA H4 M1 I1) as (F2 & s' & E2 & I2 & _ & _ & R & J2).
  exists (Nat.max F1 F2), s, s', (mm_state (lf_mm s')). split.
  { intros fuel Hf. unfold lfrun. rewrite E0. cbn [bind]. split; [apply E1; lia|apply E2; lia]. }
  pose proof (in_mm _ _ _ _ _ I1) as (_ & L1 & _ & V1). pose proof (in_mm _ _ _ _ _ I2) as (_ & L2 & _ & V2). rewrite <- S0, <- K5.
  split; [apply arg_ok; auto|]. split; [apply arg_ok; auto|]. split; auto. split; auto. intros y Ly HD. set (x' := mm_state (lf_mm s')) in *.
  rewrite EF in K1. rewrite X0 in K4. rewrite <- K2 in T0. rewrite <- K3 in T1. specialize (J2 H7 K1 T0 T1). rewrite K4 in J2.
  pose proof (labeling_length _ g _ L2) as LX. pose proof (labeling_length _ g _ Ly) as LY.
  apply (canon_enough T OP ACC fin OL AL g W FG adj HA (NB T g W adj HA stop) x' (max_after max ops) L2 J2 (filter (fun v => negb (nth v x' 0 =? nth v y 0)) (seq 0 (length x')))); auto.
  - apply NoDup_filter, seq_NoDup.
  - apply Forall_forall. intros v Hv. apply filter_In in Hv. destruct Hv as [Hv _]. apply in_seq in Hv. lia.
  - intros v Hv. destruct (Nat.lt_ge_cases v (length x')) as [Hl|Hl]; [|rewrite !nth_overflow by lia; auto].
    destruct (Nat.eqb_spec (nth v x' 0) (nth v y 0)) as [|N]; auto. exfalso. apply Hv. apply filter_In. split; [apply in_seq; lia|]. apply negb_true_iff, Nat.eqb_neq. auto.
  - intros v Hv. apply filter_In in Hv. destruct Hv as [_ Hv]. apply negb_true_iff, Nat.eqb_neq in Hv. auto.
Qed.

(** With a bound of at least the number of variables, the result is globally optimal. *)
Theorem C39_exact : forall max startPoint mode ops stop, 1 <= max -> v_labels g <> [] -> lfstart_legal g startPoint -> mode_fits g mode ->
  Forall (lflegal g) ops -> Forall not_infer ops -> (forall k, stop k = false) -> n <= max_after max ops ->
  exists F s s' x', (forall fuel, F <= fuel -> lfrun fuel max startPoint mode ops = Ret s /\ lf_infer T OP mult recompute ACC g stop fuel s = Ret s') /\
    lf_arg T g s' = Ret x' /\ optimal OP ACC g x'.
Proof.
  intros max sp mode ops stop H1 H2 H3 H4 H5 H6 H7 H8. destruct (C39_neighbourhood max sp mode ops stop H1 H2 H3 H4 H5 H6 H7) as (F & s & s' & x' & A & _ & B & C & _ & D).
  exists F, s, s', x'. split; auto. split; auto. split; auto. intros y Ly. apply D; auto. etransitivity; [|exact H8]. unfold distance.
  rewrite <- (labeling_length _ g _ C). rewrite <- (seq_length (length x') 0) at 2. generalize (seq 0 (length x')). intros l. induction l as [|a l IH]; cbn [filter length]; auto.
  destruct (negb _); cbn [length]; lia.
Qed.

(** A model without variables and a bound of zero are refused, at construction and later. *)
Theorem C39_refused : (forall max sp mode, max = 0 \/ v_labels g = [] -> lf_new T OP g max sp mode = Throw) /\ (forall s : lf T, lf_setMax T s 0 = Throw).
Proof.
  split; auto. intros max sp mode H. unfold lf_new. destruct (mm_new_ok T OP g W) as (m & E & O & S0). rewrite E. cbn [bind].
  destruct (Nat.eqb_spec n 0) as [Z|Z]; auto. destruct H as [->|H]; auto. rewrite H in Z. destruct Z. auto.
Qed.
End Props.
Print Assumptions C39_infer.
Print Assumptions C39_neighbourhood.
Print Assumptions C39_exact.
Print Assumptions C39_refused.

(** The hypotheses are met by a model with three variables, two of them with three labels, and by a history with
    several infer calls, one of them stopped; and here are runs that move, in both modes. *)
Definition lfx : gmv Values.ext := mkGmv [2; 3; 3]
  [ ([0; 1], fun l => if nth 0 l 0 =? nth 1 l 0 then Fin 1 else Fin 4); ([1; 2], fun l => if nth 0 l 0 + nth 1 l 0 =? 3 then Fin 0 else Fin 3);
    ([2], fun l => Fin (Z.of_nat (nth 0 l 0))) ].
Definition never : nat -> bool := fun _ => false.
Notation run := (lfrun Values.ext AdderE false (fun _ => false) MinimizerE).
Notation result fuel g max sp mode ops :=
  (s <- run g fuel max sp mode ops ;; x <- lf_arg Values.ext g s ;; Ret (x, lf_value s)).
Example C39_case : wf_gmv lfx /\ fin_gmv finite lfx /\ v_labels lfx <> [] /\ lfstart_legal lfx [1; 2; 0] /\ mode_fits lfx None /\ mode_fits lfx (Some true) /\
  Forall (lflegal lfx) [LfSetMax 2; LfInfer (fun k => 2 <? k); LfSetStart [0; 0; 2]; LfReset; LfInfer never] /\
  result 60 lfx 1 [1; 2; 0] None [LfSetMax 2; LfInfer (fun k => 2 <? k); LfSetStart [0; 0; 2]; LfReset; LfInfer never] = Ret ([0; 0; 0], Fin 4) /\
  result 60 lfx 3 [] None [LfInfer never] = Ret ([1; 1; 2], Fin 3) /\ result 60 lfx 1 [] None [LfInfer never] = Ret ([0; 0; 0], Fin 4).
Proof.
  split; [split; cbn; repeat constructor; cbn; lia|]. split.
  { repeat constructor; intros x H; cbn; repeat (destruct (_ =? _)); eexists; reflexivity. }
  split; [discriminate|]. split; [intros _; repeat constructor|]. split; [repeat constructor|]. split; [repeat constructor|].
  split; [repeat constructor; cbn; lia|]. vm_compute. auto.
Qed.

(** What infer finds depends on more than the labeling it starts from: the forest of the first infer is kept, reset
    does nothing, and a later infer looks only at subgraphs it has not generated yet.  So a second infer, after
    setStartingPoint, leaves a labeling that changing two variables improves, although the bound is two. *)
Definition pair_g : gmv Values.ext := mkGmv [2; 2]
  [ ([0; 1], fun l => match l with [0; 0] => Fin 1 | [1; 1] => Fin 0 | _ => Fin 2 end) ].
Theorem C39_second_infer_refuted : exists g y s x, wf_gmv g /\ fin_gmv finite g /\ mode_fits g None /\ labeling g y /\
  run g 60 2 [] None [LfInfer never; LfSetStart [0; 0]; LfReset; LfInfer never] = Ret s /\ lf_arg Values.ext g s = Ret x /\
  distance x y <= 2 /\ a_bop MinimizerE (total AdderE g y) (total AdderE g x) = true.
Proof.
  exists pair_g, [1; 1]. eexists. exists [0; 0]. split; [split; cbn; repeat constructor; cbn; lia|]. split.
  { repeat constructor. intros x H. cbn. destruct (nth 0 x 0) as [|[]], (nth 1 x 0) as [|[]]; eexists; reflexivity. }
  split; [repeat constructor|]. split; [repeat constructor|]. split; [vm_compute; reflexivity|]. split; [vm_compute; reflexivity|]. split; [cbn; lia|]. reflexivity.
Qed.
(** And raising the bound between two calls of infer has no effect. *)
Definition triple_g : gmv Values.ext := mkGmv [2; 2; 2]
  [ ([0; 1; 2], fun l => match l with [0; 0; 0] => Fin 1 | [1; 1; 1] => Fin 0 | _ => Fin 2 end) ].
Theorem C39_raised_bound_refuted : exists g y s x, wf_gmv g /\ fin_gmv finite g /\ mode_fits g None /\ labeling g y /\
  run g 60 2 [] None [LfInfer never; LfSetMax 3; LfInfer never] = Ret s /\ lf_arg Values.ext g s = Ret x /\
  distance x y <= 3 /\ a_bop MinimizerE (total AdderE g y) (total AdderE g x) = true /\
  result 60 g 3 [] None [LfInfer never] = Ret (y, total AdderE g y).
Proof.
  exists triple_g, [1; 1; 1]. eexists. exists [0; 0; 0]. split; [split; cbn; repeat constructor; cbn; lia|]. split.
  { repeat constructor. intros x H. cbn. destruct (nth 0 x 0) as [|[]], (nth 1 x 0) as [|[]], (nth 2 x 0) as [|[]]; eexists; reflexivity. }
  split; [repeat constructor|]. split; [repeat constructor|]. split; [vm_compute; reflexivity|]. split; [vm_compute; reflexivity|]. split; [cbn; lia|].
  split; [reflexivity|]. vm_compute. reflexivity.
Qed.
(** A variable with one label is outside [mode_fits]: then value() is not the value of the labeling returned. *)
Definition one_g : gmv Values.ext := mkGmv [1; 2; 2; 2]
  [ ([0; 3], fun _ => Fin 0); ([1; 2], fun l => match l with [0; 0] => Fin 0 | [1; 1] => Fin 5 | _ => Fin 7 end);
    ([2; 3], fun l => match l with [1; 1] => Fin (-9) | _ => Fin 0 end); ([3], fun l => match l with [1] => Fin 20 | _ => Fin 0 end) ].
Theorem C39_one_label_refuted : exists g s x, wf_gmv g /\ fin_gmv finite g /\ v_labels g <> [] /\
  run g 60 2 [] None [LfInfer (fun k => 2 <=? k)] = Ret s /\ lf_arg Values.ext g s = Ret x /\ lf_value s <> total AdderE g x.
Proof.
  exists one_g. eexists. eexists. split; [split; cbn; repeat constructor; cbn; lia|]. split.
  { repeat constructor; intros x H; cbn; repeat match goal with |- context [nth ?i x 0] => destruct (nth i x 0) as [|[]] end; eexists; reflexivity. }
  split; [discriminate|]. split; [vm_compute; reflexivity|]. split; [vm_compute; reflexivity|]. vm_compute. discriminate.
Qed.
Print Assumptions C39_second_infer_refuted.
Print Assumptions C39_raised_bound_refuted.
Print Assumptions C39_one_label_refuted.
