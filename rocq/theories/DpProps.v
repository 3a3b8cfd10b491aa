(** C19: DynamicProgramming finds an optimum of every model whose pairwise factors form a forest. *)
From Verif Require Import Base Values GmView GmViewSpec GmProofs GmViewProofs ShapeSpec ShapeProofs OperationsModel GmViewProps DpModel DpSpec DpOrder DpInfer DpProofs.
From Coq Require Import Relations.Relation_Operators Sorted.
#[local] Arguments nth_error : simpl never.

Section Dp.
Variable T : Type.
Variable OP : oper T.
Variable ACC : accum T.

(** Construct with the requested roots, then call infer [m] times. *)
Definition dp_run (g : gmv T) (roots : list nat) (m : nat) : outcome (dp T) :=
  d <- dp_new T g roots ;; foldM (fun d (_ : unit) => dp_infer T OP ACC g d) (repeat tt m) d.

Variable fin : T -> Prop.
Hypothesis OL : op_laws fin OP.
Hypothesis AL : acc_laws fin OP ACC.
Hypothesis AS : acc_select fin ACC.
Variable g : gmv T.
Hypothesis W : wf_gmv g.
Hypothesis FG : fin_gmv fin g.
Hypothesis FO : forest g.

Lemma mapM_get_Some : forall A (x : list A), mapM get (map Some x) = Ret x.
Proof. induction x as [|a x IH]; auto. cbn [map mapM get bind]. rewrite IH. auto. Qed.

(** Infer, called once or again, leads to a labeling that no labeling beats, and value() is its value. *)
Theorem C19_optimal : forall roots m, second_order g -> roots_ok g roots ->
  exists d x, dp_run g roots (S m) = Ret d /\ dp_arg T ACC g d = Ret (map Some x, true) /\ optimal OP ACC g x /\ dp_value T OP ACC g d = Ret (total OP g x).
Proof.
  intros roots m SO RO. destruct (dp_new_ok T g W roots RO FO) as (order & nodes & st & E & OD). unfold dp_run. rewrite E. cbn [bind].
  assert (G : forall m d, d_order d = order -> d_nodes d = nodes -> shaped (length (v_labels g)) (lab T g) (d_val d) -> shaped (length (v_labels g)) (fun v => lab T g v * nkids T g order v) (d_st d) ->
    exists d', foldM (fun d (_ : unit) => dp_infer T OP ACC g d) (repeat tt (S m)) d = Ret d' /\ d_order d' = order /\ d_started d' = true /\ forall v, v < length (v_labels g) -> node_ok T OP ACC fin g order (d_val d') (d_st d') v).
  { clear m. induction m as [|m IH]; intros d HO HN HV HS; cbn [repeat foldM]; destruct (infer_ok T OP ACC fin OL AL AS g W FG order nodes st OD SO d HO HN HV HS) as (d1 & E1 & O1 & N1 & S1 & V1 & T1 & K1); rewrite E1; cbn [bind].
    - exists d1. auto.
    - apply IH; auto. }
  match goal with |- context [foldM _ _ ?d0] => destruct (G m d0) as (d & ED & DO & DS & DN) end; try reflexivity.
  { apply val0_shaped. } { apply (st0_shaped T g W order nodes st OD). }
  destruct (arg_ok T OP ACC fin OL AL AS g W FG SO order nodes st OD (d_val d) (d_st d) DN d DO eq_refl eq_refl DS) as (x & EA & OX).
  exists d, x. split; auto. split; auto. split; auto. unfold dp_value. rewrite EA. cbn [bind]. rewrite mapM_get_Some. cbn [bind]. apply v_evaluate_total; auto. apply labeling_length. apply OX.
Qed.

(** Before infer: label 0 everywhere, not NORMAL, and value() is the neutral element of the accumulation. *)
Theorem C19_before : forall roots, roots_ok g roots -> exists d, dp_run g roots 0 = Ret d /\
  dp_arg T ACC g d = Ret (repeat (Some 0) (length (v_labels g)), false) /\ dp_value T OP ACC g d = Ret (a_neutral ACC).
Proof.
  intros roots RO. destruct (dp_new_ok T g W roots RO FO) as (order & nodes & st & E & OD). unfold dp_run. rewrite E. cbn [bind repeat foldM]. eexists. split; [reflexivity|]. split; reflexivity.
Qed.

(** A factor of more than two variables makes infer throw. *)
Theorem C19_rejects : forall roots m, ~ second_order g -> roots_ok g roots -> dp_run g roots (S m) = Throw.
Proof.
  intros roots m NS RO. destruct (dp_new_ok T g W roots RO FO) as (order & nodes & st & E & OD). unfold dp_run. rewrite E. cbn [bind repeat foldM].
  rewrite (infer_throws T OP ACC fin OL AL AS g W FG order nodes st OD NS); auto; [apply val0_shaped|apply (st0_shaped T g W order nodes st OD)].
Qed.
End Dp.
Print Assumptions C19_optimal.
Print Assumptions C19_before.
Print Assumptions C19_rejects.

(** A case: a tree of three variables and a tree of one, rooted at variables 2 and 3. *)
Definition dp_ex : gmv ext := mkGmv [2; 3; 2; 2]
  [ ([0; 2], fun l => Fin (Z.of_nat ((nth 0 l 0 * 5 + nth 1 l 0 * 3 + 2) mod 7)));
    ([1; 2], fun l => Fin (Z.of_nat ((nth 0 l 0 * 4 + nth 1 l 0 * 6 + 1) mod 5)));
    ([], fun _ => Fin 10); ([3], fun l => Fin (1 - Z.of_nat (nth 0 l 0))); ([2], fun l => Fin (2 * Z.of_nat (nth 0 l 0))) ].
Lemma dp_ex_edge : forall k u v, edge dp_ex k u v -> (k = 0 /\ (u = 0 /\ v = 2 \/ u = 2 /\ v = 0)) \/ (k = 1 /\ (u = 1 /\ v = 2 \/ u = 2 /\ v = 1)).
Proof.
  intros k u v (fc & E & H). destruct k as [|[|[|[|[|k]]]]].
  1-5: cbn in E; injection E as <-; cbn in H.
  - left. split; auto. destruct H as [H|H]; injection H as <- <-; auto.
  - right. split; auto. destruct H as [H|H]; injection H as <- <-; auto.
  - destruct H; discriminate.
  - destruct H; discriminate.
  - destruct H; discriminate.
  - exfalso. unfold dp_ex in E. cbn in E. destruct k; discriminate.
Qed.
(** A set of variables that no edge leaves contains everything linked to its members. *)
Lemma closed_reach : forall (R : nat -> nat -> Prop) (p : nat -> bool) u v, clos_refl_trans nat R u v -> (forall a b, R a b -> p a = true -> p b = true) -> p u = true -> p v = true.
Proof. intros R p u v H HR. induction H; eauto. Qed.
Lemma dp_ex_forest : forest dp_ex.
Proof.
  intros k u v H C. apply dp_ex_edge in H. destruct H as [[-> H]|[-> H]].
  - assert (X : (u =? 0) = (v =? 0)).
    { assert (S : forall a b, (exists j, j <> 0 /\ edge dp_ex j a b) -> (a =? 0) = (b =? 0)).
      { intros a b (j & N & E). apply dp_ex_edge in E. destruct E as [[-> _]|[-> [[-> ->]|[-> ->]]]]; auto. congruence. }
      clear H. induction C; [apply S; auto|auto|congruence]. }
    destruct H as [[-> ->]|[-> ->]]; discriminate.
  - assert (X : (u =? 1) = (v =? 1)).
    { assert (S : forall a b, (exists j, j <> 1 /\ edge dp_ex j a b) -> (a =? 1) = (b =? 1)).
      { intros a b (j & N & E). apply dp_ex_edge in E. destruct E as [[-> [[-> ->]|[-> ->]]]|[-> _]]; auto. congruence. }
      clear H. induction C; [apply S; auto|auto|congruence]. }
    destruct H as [[-> ->]|[-> ->]]; discriminate.
Qed.
Lemma dp_ex_edges : edge dp_ex 0 2 0 /\ edge dp_ex 1 2 1.
Proof. split; eexists; split; [reflexivity|right; reflexivity|reflexivity|right; reflexivity]. Qed.
Lemma dp_ex_roots : roots_ok dp_ex [2; 3].
Proof.
  split; [repeat constructor|]. split.
  - constructor; [|constructor; [constructor|constructor]]. constructor; [|constructor]. intros C.
    assert (X : (3 <? 3) = true); [|discriminate]. apply (closed_reach (fun a b => exists k, edge dp_ex k a b) (fun v => v <? 3) 2 3 C); auto.
    intros a b [k E] _. apply dp_ex_edge in E. destruct E as [[_ [[_ ->]|[_ ->]]]|[_ [[_ ->]|[_ ->]]]]; auto.
  - destruct dp_ex_edges as [E0 E1]. intros v Hv. exists 2. split; [left; auto|]. cbn in Hv. destruct v as [|[|v]]; [| |lia]; apply rt_step; eauto.
Qed.
Example C19_case : wf_gmv dp_ex /\ fin_gmv finite dp_ex /\ forest dp_ex /\ second_order dp_ex /\ roots_ok dp_ex [2; 3] /\ roots_ok dp_ex [] /\
  (d <- dp_run ext AdderE MinimizerE dp_ex [2; 3] 2 ;; r <- dp_arg ext MinimizerE dp_ex d ;; v <- dp_value ext AdderE MinimizerE dp_ex d ;; Ret (r, v)) = Ret ([Some 1; Some 1; Some 0; Some 1], true, Fin 10).
Proof.
  split; [split; cbn; repeat constructor; cbn; lia|]. split; [repeat constructor; intros; eexists; reflexivity|]. split; [apply dp_ex_forest|]. split; [repeat constructor|].
  split; [apply dp_ex_roots|]. split; [|vm_compute; reflexivity]. split; [constructor|]. split; [constructor|]. intros v Hv. cbn in Hv. lia.
Qed.
Definition dp_high : gmv ext := mkGmv [2; 2; 2] [ ([0], fun _ => Fin 1); ([0; 1; 2], fun _ => Fin 1) ].
Example C19_rejects_case : wf_gmv dp_high /\ fin_gmv finite dp_high /\ forest dp_high /\ ~ second_order dp_high /\ roots_ok dp_high [] /\ dp_run ext AdderE MinimizerE dp_high [] 1 = Throw.
Proof.
  split; [split; cbn; repeat constructor; cbn; lia|]. split; [repeat constructor; intros; eexists; reflexivity|]. split.
  { intros k u v (fc & E & H). exfalso. destruct k as [|[|k]]; [| |unfold dp_high in E; cbn in E; destruct k; discriminate]; cbn in E; injection E as <-; destruct H; discriminate. }
  split; [|split; [|vm_compute; reflexivity]].
  - intros H. unfold second_order in H. rewrite Forall_forall in H. specialize (H _ (or_intror (or_introl eq_refl))). cbn in H. lia.
  - split; [constructor|]. split; [constructor|]. intros v Hv. cbn in Hv. lia.
Qed.

(** A root requested while an earlier variable of another tree is not reached from a requested root: the constructor
    leaves a variable without a place and then writes outside its buffers. *)
Definition dp_iso : gmv ext := mkGmv [2; 2] [ ([0], fun _ => Fin 1); ([1], fun _ => Fin 1) ].
Theorem C19_roots_refuted : exists g : gmv ext, wf_gmv g /\ fin_gmv finite g /\ forest g /\ second_order g /\ dp_new ext g [1] = Undef /\ dp_new ext g [] <> Undef.
Proof.
  exists dp_iso. split; [split; cbn; repeat constructor; cbn; lia|]. split; [repeat constructor; intros; eexists; reflexivity|]. split.
  { intros k u v (fc & E & H). exfalso. destruct k as [|[|k]]; [| |unfold dp_iso in E; cbn in E; destruct k; discriminate]; cbn in E; injection E as <-; destruct H; discriminate. }
  split; [repeat constructor|]. split; [vm_compute; reflexivity|vm_compute; discriminate].
Qed.
(** With values that are not better than the neutral element of the accumulation (all labels forbidden), no label is
    chosen: the result is not a labeling. *)
Definition dp_inf : gmv ext := mkGmv [2] [ ([0], fun _ => PInf) ].
Theorem C19_infinite_refuted : exists g d, wf_gmv g /\ forest g /\ second_order g /\ roots_ok g [] /\ dp_run ext AdderE MinimizerE g [] 1 = Ret d /\ dp_arg ext MinimizerE g d = Ret ([None], true).
Proof.
  exists dp_inf. eexists. split; [split; cbn; repeat constructor; cbn; lia|]. split.
  { intros k u v (fc & E & H). exfalso. destruct k as [|k]; [|unfold dp_inf in E; cbn in E; destruct k; discriminate]; cbn in E; injection E as <-; destruct H; discriminate. }
  split; [repeat constructor|]. split; [|split; [vm_compute; reflexivity|vm_compute; reflexivity]]. split; [constructor|]. split; [constructor|]. intros v Hv. cbn in Hv. lia.
Qed.
Print Assumptions C19_roots_refuted.
Print Assumptions C19_infinite_refuted.
