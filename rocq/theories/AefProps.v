(** C56: AlphaExpansionFusion.  Spec: AefSpec.v, FuseSpec.v, GmViewSpec.v; model: AefModel.v. *)
From Coq Require Import QArith Qcanon Permutation.
From Verif Require Import Base Values GmView GmViewSpec ShapeSpec AlphaBetaSwapSpec DualDecompModel HoeModel HoeSpec HoeProofs FuseModel FuseProofs FuseSpec HqpboModel FuseMoves FuseProps AefModel AefSpec AefProofs.
Open Scope nat_scope.

Section Fusion.
Variables (maxi : bool) (g : gmv Qc) (p : aefparam) (k : nat) (solve : qsolver).
Hypothesis W : wf_gmv g.
Hypothesis K : same_labels k g.
Hypothesis NE : v_labels g <> [].
Hypothesis O : order_at_most 10 g.
Hypothesis PO : param_ok k g p.
Hypothesis QP : qpbo_solver solve.
Let KP : 0 < k.
Proof. clear O PO QP. destruct W as [_ P]. unfold same_labels, positive in *. destruct (v_labels g) as [|a l]; [contradiction|]. inversion K; subst. inversion P; assumption. Qed.

(** After every legal history, infer succeeds, arg() is a labeling and not worse than before. *)
Theorem C56_never_worse ops stop : Forall (af_legal g) ops -> exists s s' calls, af_run maxi g p solve ops = Ret s /\ af_infer g p solve stop s = Ret (s', calls) /\
  labeling g (af_arg s) /\ labeling g (af_arg s') /\ no_worse g (af_arg s') (af_arg s).
Proof.
  intros F. destruct (run_ok maxi g p k solve W K NE KP O PO QP ops F) as (s & E & I). destruct (infer_ok g p k solve W K NE KP O QP stop s I) as (s' & c & E' & I' & N & _).
  exists s, s', c. split; [exact E|]. split; [exact E'|]. split; [apply I|]. split; [apply I'|exact N].
Qed.
(** If QPBO labels everything and infer ends by itself before the limit of steps, no expansion improves the result. *)
Theorem C56_no_expansion_improves ops stop : complete_solver solve -> Forall (af_legal g) ops -> (forall i, stop i = false) -> exists s s' calls, af_run maxi g p solve ops = Ret s /\ af_infer g p solve stop s = Ret (s', calls) /\
  (calls < fp_steps p -> forall a y, a < k -> expansion_of a (af_arg s') y -> no_worse g (af_arg s') y).
Proof.
  intros CS F ST. destruct (run_ok maxi g p k solve W K NE KP O PO QP ops F) as (s & E & I). destruct (infer_ok g p k solve W K NE KP O QP stop s I) as (s' & c & E' & I' & N & G).
  exists s, s', c. split; [exact E|]. split; [exact E'|]. intros HC a y Ha Hy. apply (G CS ST HC a Ha y Hy).
Qed.
(** The start: zero, or the given labels; reset restores it; setStartingPoint and setState set it. *)
Theorem C56_start ops : Forall (af_legal g) ops -> exists s0 s s1, af_run maxi g p solve [] = Ret s0 /\ af_run maxi g p solve ops = Ret s /\ af_reset maxi g p s = Ret s1 /\
  (fp_init p = DEFAULT_LABEL -> af_arg s0 = repeat 0 (length (v_labels g)) /\ af_arg s1 = repeat 0 (length (v_labels g))) /\
  (forall l, fp_init p = EXPLICIT_LABEL l -> labeling g l -> af_arg s0 = l /\ af_arg s1 = l) /\
  (forall x, labeling g x -> (exists s2, af_setStart g s x = Ret s2 /\ af_arg s2 = x) /\ af_arg (af_setState s x) = x).
Proof.
  intros F. destruct (new_ok maxi g p k W K NE KP O PO) as (s0 & E0 & I0 & _ & _ & X0). destruct (run_ok maxi g p k solve W K NE KP O PO QP ops F) as (s & E & I).
  destruct (reset_ok maxi g p k W K NE KP PO s I) as (s1 & E1 & I1 & _ & _ & X1). exists s0, s, s1. split; [unfold af_run; rewrite E0; reflexivity|]. split; [exact E|]. split; [exact E1|]. unfold af_arg.
  split; [intros H; rewrite H in X0, X1; auto|]. split; [intros l H Hl; rewrite H in X0, X1; auto|]. intros x Hx. split; [|reflexivity]. destruct (start_ok g k K KP s x I Hx) as (s2 & E2 & _ & X2). exists s2. auto.
Qed.
(** With two labels, the default parameters, at least two steps and a QPBO that labels everything, the result is optimal. *)
Theorem C56_binary_optimal ops stop : k = 2 -> fp_init p = DEFAULT_LABEL -> fp_order p = DEFAULT_ORDER -> 2 <= fp_steps p -> stop 0 = false -> complete_solver solve -> Forall (af_legal g) ops -> (ops = [] \/ exists ops', ops = ops' ++ [FReset]) ->
  exists s s' calls, af_run maxi g p solve ops = Ret s /\ af_infer g p solve stop s = Ret (s', calls) /\ best_labeling g (af_arg s').
Proof.
  intros K2 PI PR ST S0 CS F C.
  assert (X : exists s, af_run maxi g p solve ops = Ret s /\ ainv g k s /\ af_counter s = 0 /\ af_list s = [0; 1] /\ af_label s = repeat 0 (length (v_labels g))).
  { assert (IO : forall l, init_order g p l = [0; 1]) by (intros l; unfold init_order; rewrite PR, (max_k g k K NE KP), K2; reflexivity).
    destruct C as [->|[ops' ->]].
    - destruct (new_ok maxi g p k W K NE KP O PO) as (s & E & I & X1 & X2 & X3). rewrite PI in X3. rewrite IO in X2. exists s. split; [unfold af_run; rewrite E; reflexivity|auto].
    - apply Forall_app in F. destruct (run_ok maxi g p k solve W K NE KP O PO QP ops' (proj1 F)) as (s & E & I). destruct (reset_ok maxi g p k W K NE KP PO s I) as (s1 & E1 & I1 & X1 & X2 & X3). rewrite PI in X3. rewrite IO in X2.
      exists s1. split; [|auto]. unfold af_run in *. destruct (af_new maxi g p) as [s0| | |]; cbn [bind] in *; try discriminate E. clear - E E1. revert s0 E. induction ops' as [|o ops' IH]; intros s0 E; cbn [app foldM] in *.
      + injection E as ->. cbn [af_step]. rewrite E1. reflexivity.
      + destruct (af_step maxi g p solve s0 o) as [s'| | |]; cbn [bind] in *; try discriminate E. apply IH. exact E. }
  assert (LP : forall steps calls s cu ex, ainv g k s -> exists s' calls', af_loop g solve stop steps calls s cu ex = Ret (s', calls') /\ ainv g k s' /\ no_worse g (af_label s') (af_label s)).
  { clear - W K NE KP O QP. induction steps as [|steps IH]; intros calls s cu ex I; cbn [af_loop]; [exists s, calls; split; [reflexivity|split; [exact I|unfold no_worse; qlra]]|].
    destruct ((cu <? af_maxState g) && negb ex); [|exists s, calls; split; [reflexivity|split; [exact I|unfold no_worse; qlra]]].
    destruct (move g k solve W K KP O QP (af_label s) (af_alpha s) (proj1 I) (alpha_k g k KP s I)) as (l & c & E & L & _ & N & _ & _). rewrite E. cbn [bind].
    assert (I' : ainv g k (mkAef l (af_list s) (af_alpha s) (af_counter s))) by (destruct I as (_ & J2 & J3 & J4); repeat split; try assumption; apply L).
    destruct (increment g k K NE KP _ I') as (s1 & E1 & I1 & F1 & _). rewrite E1. cbn [bind]. cbn [af_label] in F1. destruct (IH (S calls) s1 (if 0 <? c then 0 else S cu) (stop calls) I1) as (s' & c' & Ef & If & Nf).
    exists s', c'. split; [exact Ef|]. split; [exact If|]. rewrite F1 in Nf. unfold no_worse in *. qlra. }
  destruct X as (s & E & I & C0 & L0 & Z). exists s. unfold af_infer. destruct (fp_steps p) as [|[|steps]]; [lia|lia|]. cbn [af_loop]. rewrite (max_k g k K NE KP), K2. cbn [Nat.ltb Nat.leb negb andb].
  assert (A0 : af_alpha s = 0) by (destruct I as (_ & _ & _ & <-); rewrite C0, L0; reflexivity).
  destruct (move g k solve W K KP O QP (af_label s) (af_alpha s) (proj1 I) (alpha_k g k KP s I)) as (l1 & c1 & E1 & L1 & X1 & N1 & _ & _). rewrite E1. cbn [bind].
  assert (Z1 : l1 = repeat 0 (length (v_labels g))).
  { rewrite A0, Z in X1. destruct X1 as [Q1 Q2]. rewrite repeat_length in *. apply (nth_ext _ _ 0 0); [rewrite repeat_length; exact Q1|]. intros v Hv. rewrite nth_repeat. destruct (Q2 v ltac:(lia)) as [H|H]; rewrite H; [apply nth_repeat|reflexivity]. }
  assert (I1 : ainv g k (mkAef l1 (af_list s) (af_alpha s) (af_counter s))) by (destruct I as (_ & I2 & I3 & I4); repeat split; try assumption; apply L1).
  destruct (increment g k K NE KP _ I1) as (s1 & E2 & I2 & F1 & F2 & F3). rewrite E2. cbn [bind]. cbn [af_label af_list af_counter] in F1, F2, F3. rewrite C0, K2 in F3. cbn in F3. rewrite S0. cbn [negb]. rewrite andb_true_r.
  assert (A1 : af_alpha s1 = 1) by (destruct I2 as (_ & _ & _ & <-); rewrite F2, F3, L0; reflexivity).
  destruct (move g k solve W K KP O QP (af_label s1) (af_alpha s1) (proj1 I2) (alpha_k g k KP s1 I2)) as (l2 & c2 & E3 & L2 & X2 & N2 & _ & B2). rewrite E3. cbn [bind].
  assert (I3 : ainv g k (mkAef l2 (af_list s1) (af_alpha s1) (af_counter s1))) by (destruct I2 as (_ & J2 & J3 & J4); repeat split; try assumption; apply L2).
  destruct (increment g k K NE KP _ I3) as (s2 & E4 & I4 & G1 & G2 & G3). rewrite E4. cbn [bind]. cbn [af_label] in G1.
  match goal with |- context [af_loop g solve stop steps 2 s2 ?cu ?ex] => assert (T : exists s' calls, af_loop g solve stop steps 2 s2 cu ex = Ret (s', calls) /\ ainv g k s' /\ no_worse g (af_label s') (af_label s2)) end.
  { apply LP. exact I4. }
  destruct T as (s' & calls & Ef & If & Nf). exists s', calls. split; [exact E|]. split; [destruct c1; exact Ef|]. split; [apply If|]. intros y Hy. rewrite G1 in Nf. apply labeling_k with (k := k) in Hy; [|exact K|exact KP]. destruct Hy as [Ly Hy].
  specialize (B2 CS y). unfold no_worse, af_arg in *. assert ((menergy g l2 <= menergy g y)%Qc); [|qlra]. apply B2. rewrite A1, F1, Z1. split; [rewrite repeat_length; exact Ly|]. rewrite repeat_length. intros v Hv. rewrite nth_repeat. specialize (Hy v Hv). lia.
Qed.
End Fusion.

(** A factor with more than ten variables is refused. *)
Theorem C56_order_refused maxi (g : gmv Qc) p solve ops : ~ order_at_most 10 g -> af_run maxi g p solve ops = Throw.
Proof.
  intros NO. unfold af_run, af_new. replace (existsb _ _) with true; [reflexivity|]. symmetry. apply existsb_exists. unfold order_at_most in NO. apply neg_Forall_Exists_neg in NO; [|intros c; apply le_dec].
  apply Exists_exists in NO. destruct NO as (c & Hc & H). exists c. split; [exact Hc|]. apply Nat.ltb_lt. unfold clique. lia.
Qed.

(** *** Examples and refutations *)
Definition never : nat -> bool := fun _ => false.
Definition ex_p : aefparam := mkAefParam DEFAULT_LABEL DEFAULT_ORDER 1000 (fun i => i) [].
(** Three labels, a factor over three variables. *)
Definition ex3_gm : gmv Qc := mkGmv [3; 3; 3]
  [([0; 1; 2], fun l => match l with [2; 2; 0] => Q2Qc (-5) | [2; _; _] => Q2Qc 1 | _ => Q2Qc 2 end);
   ([0; 2], fun l => match l with [a; b] => if a =? b then 0%Qc else 1%Qc | _ => 0%Qc end)].
Example C56_example : wf_gmv ex3_gm /\ same_labels 3 ex3_gm /\ order_at_most 10 ex3_gm /\ param_ok 3 ex3_gm ex_p /\ Forall (af_legal ex3_gm) [FInfer never; FStart [0; 0; 1]; FReset] /\
  exists s s', af_run false ex3_gm ex_p try_all [FInfer never; FStart [0; 0; 1]; FReset] = Ret s /\ af_arg s = [0; 0; 0] /\ af_infer ex3_gm ex_p try_all never s = Ret (s', 6) /\ af_arg s' = [2; 2; 0] /\ ~ no_worse ex3_gm [0; 0; 0] [2; 2; 0].
Proof.
  split; [split; repeat constructor; cbn; intuition lia|]. split; [repeat constructor|]. split; [repeat constructor; cbn; lia|]. split; [split; [exact I|discriminate]|]. split; [repeat constructor|].
  destruct (af_run false ex3_gm ex_p try_all [FInfer never; FStart [0; 0; 1]; FReset]) as [s| | |] eqn:R; [|vm_compute in R; discriminate R..]. vm_compute in R. injection R as <-. do 2 eexists. split; [reflexivity|]. split; [reflexivity|].
  split; [vm_compute; reflexivity|]. split; [reflexivity|]. vm_compute. intros H. apply H. reflexivity.
Qed.
(** Two labels, as in C55_hqpbo_example. *)
Example C56_binary_example : param_ok 2 ex_gm ex_p /\ exists s s', af_run true ex_gm ex_p try_all [] = Ret s /\ af_infer ex_gm ex_p try_all never s = Ret (s', 4) /\ af_arg s' = [1; 1; 0].
Proof. split; [split; [exact I|discriminate]|]. do 2 eexists. split; [vm_compute; reflexivity|]. split; [vm_compute; reflexivity|]. reflexivity. Qed.
(** Without equal numbers of labels a label that does not exist is read. *)
Definition un_gm : gmv Qc := mkGmv [2; 3] [([0; 1], fun _ => 1%Qc)].
Theorem C56_unequal_refuted : wf_gmv un_gm /\ order_at_most 10 un_gm /\ param_ok 3 un_gm ex_p /\ exists s, af_run false un_gm ex_p try_all [] = Ret s /\ af_infer un_gm ex_p try_all never s = Undef.
Proof. split; [split; repeat constructor; cbn; intuition lia|]. split; [repeat constructor; cbn; lia|]. split; [split; [exact I|discriminate]|]. eexists. split; [vm_compute; reflexivity|]. vm_compute. reflexivity. Qed.
(** LOCALOPT_LABEL takes the index of the factor for the index of the variable: it reads beyond the variables, or sets the
    label of another variable. *)
Definition lo_p : aefparam := mkAefParam LOCALOPT_LABEL DEFAULT_ORDER 1000 (fun i => i) [].
Definition lo_gm : gmv Qc := mkGmv [2] [([], fun _ => 0%Qc); ([0], fun l => match l with [0] => 1%Qc | _ => 0%Qc end)].
Definition lo2_gm : gmv Qc := mkGmv [2; 2] [([1], fun l => match l with [0] => 1%Qc | _ => 0%Qc end); ([0], fun l => match l with [0] => 0%Qc | _ => 1%Qc end)].
Theorem C56_localopt_refuted : wf_gmv lo_gm /\ order_at_most 10 lo_gm /\ af_new false lo_gm lo_p = Undef /\ wf_gmv lo2_gm /\ exists s, af_run false lo2_gm lo_p try_all [] = Ret s /\ af_arg s = [1; 0] /\ best_labeling lo2_gm [0; 1] /\ ~ best_labeling lo2_gm [1; 0].
Proof.
  split; [split; repeat constructor; cbn; intuition lia|]. split; [repeat constructor; cbn; lia|]. split; [vm_compute; reflexivity|]. split; [split; repeat constructor; cbn; intuition lia|].
  eexists. split; [vm_compute; reflexivity|]. split; [reflexivity|]. split.
  - split; [repeat constructor|]. intros y Hy. unfold labeling, in_shape in Hy. cbn in Hy. destruct y as [|a [|b [|]]]; try (exfalso; inversion Hy as [|? ? ? ? ? X]; inversion X as [|? ? ? ? ? Y]; try inversion Y; fail).
    inversion Hy as [|? ? ? ? Ha X]; subst. inversion X as [|? ? ? ? Hb _]; subst. destruct a as [|[|a]]; [| |lia]; (destruct b as [|[|b]]; [| |lia]); vm_compute; discriminate.
  - intros [_ B]. specialize (B [0; 1] ltac:(repeat constructor)). vm_compute in B. apply B. reflexivity.
Qed.
(** The accumulation is ignored: for a maximization the labeling gets worse. *)
Theorem C56_maximizer_refuted : exists s s' calls, af_run true ex3_gm ex_p try_all [] = Ret s /\ af_infer ex3_gm ex_p try_all never s = Ret (s', calls) /\ (menergy ex3_gm (af_arg s') < menergy ex3_gm (af_arg s))%Qc.
Proof. do 3 eexists. split; [vm_compute; reflexivity|]. split; [vm_compute; reflexivity|]. vm_compute. reflexivity. Qed.
(** An explicit order of another length, or a model without variables, reads the empty list of labels. *)
Theorem C56_order_length_refuted maxi (g : gmv Qc) p o : order_at_most 10 g -> fp_init p = DEFAULT_LABEL -> fp_order p = EXPLICIT_ORDER o -> length o <> af_maxState g -> af_new maxi g p = Undef.
Proof.
  intros O PI PR H. unfold af_new. replace (existsb _ _) with false.
  - unfold init_labels, init_order. rewrite PI, PR. cbn [bind]. rewrite (proj2 (Nat.eqb_neq _ _) H). reflexivity.
  - symmetry. apply not_true_is_false. intros X. apply existsb_exists in X. destruct X as (c & Hc & X). apply Nat.ltb_lt in X. unfold order_at_most in O. rewrite Forall_forall in O. specialize (O c Hc). unfold clique in *. lia.
Qed.
Theorem C56_empty_refuted maxi (g : gmv Qc) p : order_at_most 10 g -> v_labels g = [] -> fp_init p = DEFAULT_LABEL -> fp_order p = DEFAULT_ORDER -> af_new maxi g p = Undef.
Proof.
  intros O E PI PR. unfold af_new. replace (existsb _ _) with false.
  - unfold init_labels, init_order, af_maxState. rewrite PI, PR, E. reflexivity.
  - symmetry. apply not_true_is_false. intros X. apply existsb_exists in X. destruct X as (c & Hc & X). apply Nat.ltb_lt in X. unfold order_at_most in O. rewrite Forall_forall in O. specialize (O c Hc). unfold clique in *. lia.
Qed.

Print Assumptions C56_never_worse.
Print Assumptions C56_no_expansion_improves.
Print Assumptions C56_start.
Print Assumptions C56_binary_optimal.
Print Assumptions C56_order_refused.
Print Assumptions C56_unequal_refuted.
Print Assumptions C56_localopt_refuted.
Print Assumptions C56_maximizer_refuted.
Print Assumptions C56_order_length_refuted.
Print Assumptions C56_empty_refuted.
