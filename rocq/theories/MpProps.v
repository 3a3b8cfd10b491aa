(** Belief propagation on acyclic models computes the marginals exactly. *)
From Coq Require Import Sorted Permutation Relations QArith Qcanon.
From Verif Require Import Base Values OperationsModel GmView GmViewSpec ShapeSpec FactorOpsSpec FactorGraphModel FactorGraphSpec FactorGraphAcyclic MpModel MpSpec MpSum MpState MpMessages MpSchedule MpInfer MpTables MpRun.
Open Scope nat_scope.

(** C44: whatever inference and reset calls came before, and whatever the parameters of the other schedules are, one
    complete inference on a model without cycles ends and leaves, for every variable, the marginal: up to a common
    value that is the same for all labels, that is the neutral element if messages are not normalized and the model is
    connected, and that is invertible if the model is connected or its total is invertible.  With normalization, the
    values accumulate to the neutral element, unless the accumulation is too small to divide by; if they do, the
    common value is the accumulation over all labelings. *)
Theorem C44_variable_marginals : forall (T : Type) (fin : T -> Prop) (OP : oper T) (ACC : accum T) mult small wmean nonzero dist gtv zero g maxSteps bound damping sequential order norm acyc ops,
  semiring_laws fin OP ACC -> nonzero zero = false -> wf_gmv g -> fin_gmv fin g -> acyclic g -> acyc <> TFalse ->
  (norm = TTrue -> division_laws fin OP mult small) ->
  exists s, mp_run T OP ACC mult small wmean nonzero dist gtv zero g maxSteps bound damping sequential order acyc norm (ops ++ [MpInfer never]) = Ret s /\
  forall v, v < length (v_labels g) ->
  exists out c, mp_marginal T OP ACC mult small g s v = Ret out /\ fin c /\
    marginal_table OP ACC g [v] out c /\
    (connected g -> norm <> TTrue -> c = o_neutral OP) /\
    (connected g -> invertible fin OP c) /\
    (forall x, legal_at g x -> invertible fin OP (marginal_of OP ACC g [] x) -> invertible fin OP c) /\
    (norm = TTrue -> let sum := accumulate_values T (a_op ACC) (a_neutral ACC) out in
       sum = o_neutral OP \/ mult && small sum = true) /\
    (accumulate_values T (a_op ACC) (a_neutral ACC) out = o_neutral OP ->
       forall x, legal_at g x -> marginal_table OP ACC g [v] out (marginal_of OP ACC g [] x)).
Proof.
  intros T fin OP ACC mult small wmean nonzero dist gtv zero g maxSteps bound damping sequential order norm acyc ops SL ZN WF FG AC NA DL.
  destruct (run_exact T fin OP ACC mult small wmean nonzero dist gtv zero g maxSteps bound damping sequential order SL ZN WF FG AC norm DL acyc ops NA) as (s & E & H & _).
  exists s. split; auto. intros v Hv. destruct (H v Hv) as (out & c & E1 & _ & (H1 & _ & H3 & H4 & H5 & H6 & H7 & H8)). exists out, c.
  split; auto. split; auto. split; auto. split; [intros Cn NN; apply H6; auto; destruct norm; auto; congruence|]. split; auto. split; auto. split; auto. intros ->. auto.
Qed.
Print Assumptions C44_variable_marginals.

(** C44: the same for the variables of a factor. *)
Theorem C44_factor_marginals : forall (T : Type) (fin : T -> Prop) (OP : oper T) (ACC : accum T) mult small wmean nonzero dist gtv zero g maxSteps bound damping sequential order norm acyc ops,
  semiring_laws fin OP ACC -> nonzero zero = false -> wf_gmv g -> fin_gmv fin g -> acyclic g -> acyc <> TFalse ->
  (norm = TTrue -> division_laws fin OP mult small) ->
  exists s, mp_run T OP ACC mult small wmean nonzero dist gtv zero g maxSteps bound damping sequential order acyc norm (ops ++ [MpInfer never]) = Ret s /\
  forall f vars F, nth_error (v_factors g) f = Some (vars, F) -> vars <> [] ->
  exists out c, mp_factorMarginal T OP ACC mult small g s f = Ret out /\ fin c /\
    marginal_table OP ACC g vars out c /\
    (connected g -> norm <> TTrue -> c = o_neutral OP) /\
    (connected g -> invertible fin OP c) /\
    (forall x, legal_at g x -> invertible fin OP (marginal_of OP ACC g [] x) -> invertible fin OP c) /\
    (norm = TTrue -> let sum := accumulate_values T (a_op ACC) (a_neutral ACC) out in
       sum = o_neutral OP \/ mult && small sum = true) /\
    (accumulate_values T (a_op ACC) (a_neutral ACC) out = o_neutral OP ->
       forall x, legal_at g x -> marginal_table OP ACC g vars out (marginal_of OP ACC g [] x)).
Proof.
  intros T fin OP ACC mult small wmean nonzero dist gtv zero g maxSteps bound damping sequential order norm acyc ops SL ZN WF FG AC NA DL.
  destruct (run_exact T fin OP ACC mult small wmean nonzero dist gtv zero g maxSteps bound damping sequential order SL ZN WF FG AC norm DL acyc ops NA) as (s & E & _ & H).
  exists s. split; auto. intros f vars F Ef _. assert (Hf : f < length (v_factors g)) by (apply nth_error_Some; congruence).
  assert (EV : MpState.vars T OP g f = vars) by (unfold MpState.vars, fac; rewrite (nth_error_nth _ _ _ Ef); auto).
  destruct (H f Hf) as (out & c & E1 & _ & (H1 & _ & H3 & H4 & H5 & H6 & H7 & H8)). rewrite EV in *. exists out, c.
  split; auto. split; auto. split; auto. split; [intros Cn NN; apply H6; auto; destruct norm; auto; congruence|]. split; auto. split; auto. split; auto. intros ->. auto.
Qed.
Print Assumptions C44_factor_marginals.

(** ** The laws hold: energy minimization *)
Definition is_fin (a : ext) : Prop := match a with Fin _ => True | _ => False end.
Lemma min_sum_laws : semiring_laws is_fin AdderE MinimizerE.
Proof.
  constructor; cbn [AdderE MinimizerE Adder Minimizer o_neutral o_op a_op a_neutral]; unfold Adder_neutral, Adder_op2, Minimizer_op2, Minimizer_neutral.
  - exact I.
  - intros [a| | |] [b| | |]; cbn; tauto.
  - intros [a| | |] [b| | |]; cbn; try tauto. intros _ _. f_equal. lia.
  - intros [a| | |] [b| | |] [c| | |]; cbn; try tauto. intros _ _ _. f_equal. lia.
  - intros [a| | |]; cbn; try tauto. intros _. f_equal. lia.
  - intros [a| | |] [b| | |]; cbn; try tauto. intros _ _. destruct (b <? a)%Z; cbn; auto.
  - intros [a| | |] [b| | |]; cbn; try tauto. intros _ _. destruct (Z.ltb_spec b a), (Z.ltb_spec a b); auto; f_equal; lia.
  - intros [a| | |] [b| | |] [c| | |]; cbn; try tauto. intros _ _ _. destruct (Z.ltb_spec c b); cbn; destruct (Z.ltb_spec b a); cbn;
      repeat match goal with |- context[(?x <? ?y)%Z] => destruct (Z.ltb_spec x y); cbn end; auto; f_equal; lia.
  - intros [a| | |]; cbn; tauto.
  - intros [a| | |] [b| | |] [c| | |]; cbn; try tauto. intros _ _ _.
    repeat match goal with |- context[(?x <? ?y)%Z] => destruct (Z.ltb_spec x y); cbn end; auto; f_equal; lia.
Qed.
Lemma min_sum_division : forall small, division_laws is_fin AdderE false small.
Proof.
  intros small [v| | |] F _; try (destruct F; fail). exists (Fin (- v)). split; [exact I|]. split; [change (Fin (v + - v) = Fin 0); f_equal; lia|]. intros [a| | |] H; try (destruct H; fail). reflexivity.
Qed.

(** Four variables, two factors of order two, one of order three and a unary one: a tree. *)
Definition ex_gm : gmv ext := mkGmv [2; 3; 2; 2]
  [([0], fun c => Fin (Z.of_nat (nth 0 c 0) * 3)); ([0; 1], fun c => Fin (Z.of_nat (nth 0 c 0 + 2 * nth 1 c 0) mod 4));
   ([1; 2; 3], fun c => Fin ((Z.of_nat (5 * nth 0 c 0 + 3 * nth 1 c 0 + 2 * nth 2 c 0) mod 7) - 2))].
Lemma ex_wf : wf_gmv ex_gm.
Proof. split; [repeat constructor; cbn; lia|]. repeat constructor. Qed.
Lemma ex_acyclic : acyclic ex_gm.
Proof.
  destruct (isAcyclic_spec (fgraph_of ext ex_gm) (wf_graph ext AdderE ex_gm ex_wf)) as (b & E & H). unfold acyclic. apply H.
  assert (X : isAcyclic (fgraph_of ext ex_gm) = Ret true) by (vm_compute; reflexivity). congruence.
Qed.
Lemma ex_fin : fin_gmv is_fin ex_gm.
Proof. unfold fin_gmv. repeat constructor; intros; exact I. Qed.
Definition ex_run (norm : tribool) (ops : list mp_op) : outcome (mp ext) :=
  mp_run ext AdderE MinimizerE false (fun _ => false) (fun _ a _ => a) (fun _ => false) (fun _ _ => Fin 0) (fun _ _ => false) (Fin 0)
         ex_gm 10 (Fin 0) (Fin 0) false [0; 1; 2; 3] TMaybe norm ops.
Definition ex_marginal (norm : tribool) (ops : list mp_op) (v : nat) : outcome (list ext) :=
  s <- ex_run norm ops ;; mp_marginal ext AdderE MinimizerE false (fun _ => false) ex_gm s v.
(** The hypotheses hold for a history with an interrupted inference and a reset; the values are the smallest energies. *)
Example C44_min_sum : exists s, ex_run TMaybe [MpInfer (Nat.eqb 0); MpReset; MpInfer never] = Ret s /\
  mp_marginal ext AdderE MinimizerE false (fun _ => false) ex_gm s 1 = Ret [Fin (-2); Fin 0; Fin (-1)] /\
  exists out c, mp_marginal ext AdderE MinimizerE false (fun _ => false) ex_gm s 1 = Ret out /\ marginal_table AdderE MinimizerE ex_gm [1] out c.
Proof.
  destruct (C44_variable_marginals ext is_fin AdderE MinimizerE false (fun _ => false) (fun _ a _ => a) (fun _ => false) (fun _ _ => Fin 0) (fun _ _ => false) (Fin 0) ex_gm 10 (Fin 0) (Fin 0) false [0; 1; 2; 3] TMaybe TMaybe [MpInfer (Nat.eqb 0); MpReset]) as (s & E & H).
  - apply min_sum_laws.
  - auto.
  - apply ex_wf.
  - apply ex_fin.
  - apply ex_acyclic.
  - discriminate.
  - discriminate.
  - exists s. split; [exact E|]. split; [|destruct (H 1) as (out & c & E1 & _ & M & _); [cbn; lia|exists out, c; auto]].
    assert (Q : ex_marginal TMaybe [MpInfer (Nat.eqb 0); MpReset; MpInfer never] 1 = Ret [Fin (-2); Fin 0; Fin (-1)]) by (vm_compute; reflexivity).
    unfold ex_marginal, ex_run in Q. cbn [app] in E. rewrite E in Q. exact Q.
Qed.

(** With normalization the values accumulate to 0, the neutral element of the sum. *)
Example C44_min_sum_normalized : ex_marginal TTrue [MpInfer never] 1 = Ret [Fin 0; Fin 2; Fin 1].
Proof. vm_compute. reflexivity. Qed.

(** reset() does not restore the state after construction: the messages stay (here in the second of the two buffers,
    after two inferences). *)
Theorem C44_reset_refuted : ~ (forall norm ops v, v < 4 -> ex_marginal norm (ops ++ [MpReset]) v = ex_marginal norm [] v).
Proof. intros H. assert (L : 1 < 4) by lia. specialize (H TMaybe [MpInfer never; MpInfer never] 1 L). vm_compute in H. discriminate. Qed.
Print Assumptions C44_reset_refuted.

(** ** The laws hold: sums of products of rational numbers *)
Definition MultiplierQ : oper Qc := Multiplier Qc 1%Qc Qcmult Qcdiv.
Definition IntegratorQ : accum Qc := mkAccum (Integrator_neutral Qc 0%Qc) (Integrator_ineutral Qc 0%Qc) (Integrator_op2 Qc Qcplus) (Integrator_iop2 Qc) (Integrator_bop Qc) (Integrator_ibop Qc).
Definition smallQ (v : Qc) : bool := Qle_bool (this v) (1 # 100000).
Lemma sum_product_laws : semiring_laws (fun _ => True) MultiplierQ IntegratorQ.
Proof.
  constructor; intros; auto; cbn [MultiplierQ IntegratorQ Multiplier o_neutral o_op a_op a_neutral]; unfold Multiplier_neutral, Multiplier_op2, Integrator_op2, Integrator_neutral; ring.
Qed.
Lemma sum_product_division : division_laws (fun _ => True) MultiplierQ true smallQ.
Proof.
  intros v _ E. cbn [andb] in E. assert (NZ : v <> 0%Qc). { intros ->. vm_compute in E. discriminate. }
  exists (/ v)%Qc. split; auto. cbn [MultiplierQ Multiplier o_neutral o_op o_iop]. unfold Multiplier_neutral, Multiplier_op2, Multiplier_iop2. split; [apply Qcmult_inv_r; auto|]. intros a _. unfold Qcdiv. ring.
Qed.

(** One variable with two labels and two unary factors that all but exclude each other. *)
Definition q (a : Z) (b : BinNums.positive) : Qc := Q2Qc (a # b).
Definition sp_gm (l0 l1 : list Qc) : gmv Qc := mkGmv [2] [([0], fun c => nth (nth 0 c 0) l0 0%Qc); ([0], fun c => nth (nth 0 c 0) l1 0%Qc)].
Definition sp_run (g : gmv Qc) (ops : list mp_op) : outcome (mp Qc) :=
  mp_run Qc MultiplierQ IntegratorQ true smallQ (fun _ a _ => a) (fun a => negb (Qeq_bool (this a) 0)) (fun _ _ => 0%Qc) (fun _ _ => false) 0%Qc
         g 10 0%Qc 0%Qc false [0] TMaybe TTrue ops.
Definition sp_marginal (g : gmv Qc) (ops : list mp_op) (v : nat) : outcome (list Qc) :=
  s <- sp_run g ops ;; mp_marginal Qc MultiplierQ IntegratorQ true smallQ g s v.
Lemma sp_wf : forall l0 l1, wf_gmv (sp_gm l0 l1).
Proof. intros l0 l1. split; [repeat constructor; cbn; lia|]. repeat constructor. Qed.
Lemma sp_acyclic : forall l0 l1, acyclic (sp_gm l0 l1).
Proof.
  intros l0 l1. destruct (isAcyclic_spec (fgraph_of Qc (sp_gm l0 l1)) (wf_graph Qc MultiplierQ (sp_gm l0 l1) (sp_wf l0 l1))) as (b & E & H). unfold acyclic. apply H.
  assert (X : isAcyclic (fgraph_of Qc (sp_gm l0 l1)) = Ret true) by (vm_compute; reflexivity). congruence.
Qed.
(** The hypotheses of the two theorems hold here, and the values are probabilities. *)
Example C44_sum_product : exists s, sp_run (sp_gm [q 1 2; q 3 2] [q 1 1; q 2 1]) [MpInfer never] = Ret s /\
  exists out c, mp_marginal Qc MultiplierQ IntegratorQ true smallQ (sp_gm [q 1 2; q 3 2] [q 1 1; q 2 1]) s 0 = Ret out /\
    marginal_table MultiplierQ IntegratorQ (sp_gm [q 1 2; q 3 2] [q 1 1; q 2 1]) [0] out c /\ map this out = [1 # 7; 6 # 7].
Proof.
  destruct (C44_variable_marginals Qc (fun _ => True) MultiplierQ IntegratorQ true smallQ (fun _ a _ => a) (fun a => negb (Qeq_bool (this a) 0)) (fun _ _ => 0%Qc) (fun _ _ => false) 0%Qc (sp_gm [q 1 2; q 3 2] [q 1 1; q 2 1]) 10 0%Qc 0%Qc false [0] TTrue TMaybe []) as (s & E & H).
  - apply sum_product_laws.
  - auto.
  - apply sp_wf.
  - unfold fin_gmv. repeat constructor.
  - apply sp_acyclic.
  - discriminate.
  - intros _. apply sum_product_division.
  - exists s. split; [exact E|]. destruct (H 0) as (out & c & E1 & _ & M & _); [cbn; lia|]. exists out, c. split; auto. split; auto.
    assert (Q : match sp_marginal (sp_gm [q 1 2; q 3 2] [q 1 1; q 2 1]) [MpInfer never] 0 with Ret l => map this l | _ => [] end = [1 # 7; 6 # 7]) by (vm_compute; reflexivity).
    unfold sp_marginal, sp_run in Q. cbn [app] in E. rewrite E in Q. cbn [bind] in Q. rewrite E1 in Q. exact Q.
Qed.

(** With normalization the marginals of a probability model need not sum up to one. *)
Theorem C44_normalized_sum_refuted : ~ (forall (g : gmv Qc) (s : mp Qc) out, wf_gmv g -> acyclic g -> length (v_labels g) = 1 -> sp_run g [MpInfer never] = Ret s ->
  mp_marginal Qc MultiplierQ IntegratorQ true smallQ g s 0 = Ret out ->
  (this (accumulate_values Qc (a_op IntegratorQ) (a_neutral IntegratorQ) out) == 1%Q)%Q).
Proof.
  intros H.
  assert (Q : forall g, wf_gmv g -> acyclic g -> length (v_labels g) = 1 ->
    match sp_marginal g [MpInfer never] 0 with Ret l => Qeq_bool (this (accumulate_values Qc (a_op IntegratorQ) (a_neutral IntegratorQ) l)) 1 | _ => true end = true).
  { intros g WF AC L. unfold sp_marginal. destruct (sp_run g [MpInfer never]) as [s| | |] eqn:E1; cbn [bind]; [|reflexivity|reflexivity|reflexivity].
    destruct (mp_marginal Qc MultiplierQ IntegratorQ true smallQ g s 0) as [l| | |] eqn:E2; [|reflexivity|reflexivity|reflexivity].
    apply Qeq_bool_iff. apply (H g s l WF AC L E1 E2). }
  specialize (Q (sp_gm [q 999999 1000000; q 1 1000000] [q 1 1000000; q 999999 1000000]) (sp_wf _ _) (sp_acyclic _ _) eq_refl). revert Q. vm_compute. discriminate.
Qed.
Print Assumptions C44_normalized_sum_refuted.
