(** C19, getNodeInfo: the best labelings of a tree for each label of its root. *)
From Coq Require Import Relations.
From Verif Require Import Base Values GmView GmViewSpec GmProofs GmViewProofs OperationsModel GmViewProps DpModel DpOrder DpInfer DpProofs DpSpec DpProps DpNodeModel TentacleSpec DpNodeProofs.
#[local] Arguments nth_error : simpl never.

Section Props.
Variable T : Type.
Variable OP : oper T.
Variable ACC : accum T.
Variable fin : T -> Prop.
Hypothesis OL : op_laws fin OP.
Hypothesis AL : acc_laws fin OP ACC.
Hypothesis AS : acc_select fin ACC.
Variable g : gmv T.
Hypothesis W : wf_gmv g.
Hypothesis FG : fin_gmv fin g.
Hypothesis FO : forest g.

(** In a tree with root [r], after infer, getNodeInfo(r) lists all other variables; for each label of the root it gives
    their labels in a labeling that no labeling with this label of the root beats, and its value.  (Factors without
    variables do not enter the value: there are none here.) *)
Theorem C19_node_info : forall r m, second_order g -> r < length (v_labels g) -> (forall v, v < length (v_labels g) -> linked g r v) ->
  Forall (fun fc => fst fc <> []) (v_factors g) ->
  exists d values substates nodes, dp_run T OP ACC g [r] (S m) = Ret d /\ getNodeInfo T g d r = Ret (values, substates, nodes) /\
    Forall (fun v => v < length (v_labels g)) nodes /\ (forall v, v < length (v_labels g) -> v = r \/ In v nodes) /\
    length values = nth r (v_labels g) 0 /\ length substates = nth r (v_labels g) 0 /\
    forall l, l < nth r (v_labels g) 0 -> exists y, best_given OP ACC g r l y /\
      nth_error values l = Some (total OP g y) /\ nth_error substates l = Some (at_vars y nodes).
Proof.
  intros r m SO Hr LK NE.
  assert (RO : roots_ok g [r]). { split; [constructor; auto|]. split; [constructor; constructor|]. intros v Hv. exists r. split; [left; auto|]. apply LK. cbn in Hv. lia. }
  destruct (dp_new_ok T g W [r] RO FO) as (order & nodes & st & E & OD). pose proof (root_first T g r _ Hr E) as R0. cbn [d_order] in R0. unfold dp_run. rewrite E. cbn [bind].
  assert (G : forall m d, d_order d = order -> d_nodes d = nodes -> shaped (length (v_labels g)) (lab T g) (d_val d) -> shaped (length (v_labels g)) (fun v => lab T g v * nkids T g order v) (d_st d) ->
    exists d', foldM (fun d (_ : unit) => dp_infer T OP ACC g d) (repeat tt (S m)) d = Ret d' /\ d_order d' = order /\ d_started d' = true /\ forall v, v < length (v_labels g) -> node_ok T OP ACC fin g order (d_val d') (d_st d') v).
  { clear m. induction m as [|m IH]; intros d HO HN HV HS; cbn [repeat foldM]; destruct (infer_ok T OP ACC fin OL AL AS g W FG order nodes st OD SO d HO HN HV HS) as (d1 & E1 & O1 & N1 & S1 & V1 & T1 & K1); rewrite E1; cbn [bind].
    - exists d1. auto.
    - apply IH; auto. }
  match goal with |- context [foldM _ _ ?d0] => destruct (G m d0) as (d & ED & DO & DS & DN) end; try reflexivity.
  { apply val0_shaped. } { apply (st0_shaped T g W order nodes st OD). }
  assert (RN : forall q k, child_of T g order q k <> Some r). { intros q k C. destruct (child_facts T g W order _ _ _ C) as (_ & _ & _ & _ & LT). lia. }
  destruct (node_info_ok T OP ACC fin OL AL g W FG SO order nodes st OD (d_val d) (d_st d) DN d DO eq_refl eq_refl r RN Hr LK NE) as (vals & subs & EG & LV & LS & H).
  destruct (nodes_all T OP ACC fin g W order nodes st OD (d_val d) (d_st d) DN d DO eq_refl r RN Hr LK) as [NA NB].
  exists d, vals, subs, (NODES T g order r). split; auto. split; auto. split; auto. split; auto. split; auto. split; auto. intros l Hl. destruct (H l Hl) as (sub & y & A1 & -> & _ & A3 & A4). exists y. auto.
Qed.
End Props.
Print Assumptions C19_node_info.

(** A case: a chain of three variables, rooted in its middle. *)
Definition ni_ex : gmv ext := mkGmv [2; 3; 2]
  [ ([0; 2], fun l => Fin (Z.of_nat ((nth 0 l 0 * 5 + nth 1 l 0 * 3 + 2) mod 7)));
    ([1; 2], fun l => Fin (Z.of_nat ((nth 0 l 0 * 4 + nth 1 l 0 * 6 + 1) mod 5))); ([2], fun l => Fin (2 * Z.of_nat (nth 0 l 0))) ].
Lemma ni_edge : forall k u v, edge ni_ex k u v -> edge dp_ex k u v.
Proof. intros k u v (fc & E & H). destruct k as [|[|[|k]]]; [| | |unfold ni_ex in E; cbn in E; destruct k; discriminate]; cbn in E; injection E as <-; cbn in H; [| |destruct H; discriminate]; eexists; split; try reflexivity; cbn; auto. Qed.
Lemma rt_sub : forall (P Q : nat -> nat -> Prop), (forall a b, P a b -> Q a b) -> forall a b, clos_refl_trans nat P a b -> clos_refl_trans nat Q a b.
Proof. intros P Q H a b R. induction R; [apply rt_step; auto|apply rt_refl|eapply rt_trans; eauto]. Qed.
Example C19_node_info_case : wf_gmv ni_ex /\ fin_gmv finite ni_ex /\ forest ni_ex /\ second_order ni_ex /\ (forall v, v < 3 -> linked ni_ex 2 v) /\ Forall (fun fc => fst fc <> []) (v_factors ni_ex) /\
  (d <- dp_run ext AdderE MinimizerE ni_ex [2] 1 ;; getNodeInfo ext ni_ex d 2) = Ret ([Fin 0; Fin 5], [[1; 1]; [1; 2]], [0; 1]).
Proof.
  split; [split; cbn; repeat constructor; cbn; lia|]. split; [repeat constructor; intros; eexists; reflexivity|].
  split. { intros k u v H C. apply ni_edge in H. apply (dp_ex_forest k u v H). revert C. apply rt_sub. intros a b (j & N & E). exists j. split; auto. apply ni_edge. auto. }
  split; [repeat constructor|]. split.
  - intros v Hv. assert (v = 0 \/ v = 1 \/ v = 2) as [->|[->| ->]] by lia; [| |apply rt_refl]; apply rt_step; [exists 0|exists 1]; eexists; (split; [reflexivity|]); cbn; auto.
  - split; [unfold ni_ex; cbn [v_factors]; repeat (apply Forall_cons; [cbn; discriminate|]); apply Forall_nil|vm_compute; reflexivity].
Qed.
(** With a factor without variables the values differ from those of the labelings. *)
Theorem C19_node_info_constant_refuted : ~ (forall (g : gmv ext) d values substates nodes, wf_gmv g -> fin_gmv finite g -> forest g -> second_order g -> length (v_labels g) = 1 ->
  dp_run ext AdderE MinimizerE g [0] 1 = Ret d -> getNodeInfo ext g d 0 = Ret (values, substates, nodes) ->
  forall l, l < nth 0 (v_labels g) 0 -> nth_error values l = Some (total AdderE g [l])).
Proof.
  intros H. set (g := mkGmv [1] [ ([0], fun _ => Fin 1); ([], fun _ => Fin 5) ]).
  assert (E : exists d, dp_run ext AdderE MinimizerE g [0] 1 = Ret d /\ getNodeInfo ext g d 0 = Ret ([Fin 1], [[]], [])) by (eexists; split; vm_compute; reflexivity).
  destruct E as (d & E1 & E2). specialize (H g d [Fin 1] [[]] []). assert (X : nth_error [Fin 1] 0 = Some (total AdderE g [0])); [|vm_compute in X; discriminate].
  assert (WG : wf_gmv g) by (split; cbn; repeat constructor; cbn; lia). assert (FG : fin_gmv finite g) by (repeat constructor; intros; eexists; reflexivity).
  assert (FO : forest g). { intros k u v (fc & Ek & X). exfalso. destruct k as [|[|k]]; [| |unfold g in Ek; cbn in Ek; destruct k; discriminate]; cbn in Ek; injection Ek as <-; destruct X; discriminate. }
  apply H; auto. repeat constructor.
Qed.
Print Assumptions C19_node_info_constant_refuted.
