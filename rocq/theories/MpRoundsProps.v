(** The schedules of belief propagation that work in rounds: exact on acyclic models, safe on all models. *)
From Coq Require Import Sorted Permutation Relations.
From Verif Require Import Base Values OperationsModel GmView GmViewSpec ShapeSpec FactorOpsSpec FactorGraphModel FactorGraphSpec FactorGraphAcyclic MpModel MpSpec MpSum MpState MpMessages MpSchedule MpInfer MpSend MpTables MpRun MpRounds MpRoundsRun MpProps.

(** When a schedule that works in rounds is long enough: the test for convergence never ends it, there is one step
    for each variable, and one more for the sequential schedule, whose order of the variables must be complete. *)
Definition enough_rounds {T : Type} (g : gmv T) (dist : list T -> list T -> T) (gtv : T -> T -> bool) (zero bound : T)
  (sequential : bool) (order : list nat) (maxSteps : nat) : Prop :=
  gtv bound zero = false /\ (forall l1 l2, gtv bound (dist l1 l2) = false) /\
  if sequential then Permutation order (seq 0 (length (v_labels g))) /\ length (v_labels g) < maxSteps
  else length (v_labels g) <= maxSteps.

Lemma rounds_exact : forall (T : Type) (fin : T -> Prop) (OP : oper T) (ACC : accum T) mult small wmean nonzero dist gtv zero g maxSteps bound damping sequential order norm ops,
  semiring_laws fin OP ACC -> nonzero zero = false -> nonzero damping = false -> wf_gmv g -> fin_gmv fin g -> acyclic g ->
  (norm = TTrue -> division_laws fin OP mult small) -> enough_rounds g dist gtv zero bound sequential order maxSteps ->
  exists s, mp_run T OP ACC mult small wmean nonzero dist gtv zero g maxSteps bound damping sequential order TFalse norm (ops ++ [MpInfer never]) = Ret s /\
  (forall v, v < length (v_labels g) -> exists out c, mp_marginal T OP ACC mult small g s v = Ret out /\ length out = labels_at g v /\ good T fin OP ACC mult small g (tri_bool norm) [v] out c) /\
  (forall f, f < length (v_factors g) -> exists out c, mp_factorMarginal T OP ACC mult small g s f = Ret out /\ length out = size_of (map (labels_at g) (MpState.vars T OP g f)) /\ good T fin OP ACC mult small g (tri_bool norm) (MpState.vars T OP g f) out c).
Proof.
  intros T fin OP ACC mult small wmean nonzero dist gtv zero g maxSteps bound damping sequential order norm ops SL ZN DN WF FG AC DL (B1 & B2 & EN).
  set (un := tri_bool norm). assert (DL' : un = true -> division_laws fin OP mult small) by (intros H; apply DL; destruct norm; auto; discriminate).
  set (KK := K T fin OP un).
  assert (HV : forall d, nonzero d = false -> VSd T OP ACC mult small wmean nonzero g (vmsg T OP ACC g KK) (fmsg T OP ACC g KK) d).
  { intros d Hd. exact (vstep T fin OP ACC mult small wmean nonzero SL g WF FG AC KK (K_one T fin OP ACC mult small SL un DL') (K_op T fin OP ACC mult small SL un DL') (K_fin T fin OP ACC mult small SL un DL') d Hd). }
  assert (HF : forall d, nonzero d = false -> FSd T OP ACC mult small wmean nonzero g un (vmsg T OP ACC g KK) (fmsg T OP ACC g KK) d).
  { intros d Hd. exact (fun s f i v => fstep T fin OP ACC mult small wmean nonzero SL g WF FG AC KK (K_one T fin OP ACC mult small SL un DL') (K_op T fin OP ACC mult small SL un DL') (K_fin T fin OP ACC mult small SL un DL') d Hd un s f i v (K_norm T fin OP mult small un DL')). }
  assert (OL : sequential = true -> length order = length (v_labels g)). { intros ->. destruct EN as [P _]. apply Permutation_length in P. rewrite seq_length in P. auto. }
  assert (OB : sequential = true -> Forall (fun v => v < length (v_labels g)) order).
  { intros ->. destruct EN as [P _]. apply Forall_forall. intros v Hv. apply (Permutation_in _ P) in Hv. apply in_seq in Hv. lia. }
  destruct (run_any T OP ACC mult small wmean nonzero dist gtv zero g maxSteps bound damping sequential order WF un _ _ (HV zero ZN) (HF zero ZN) (HV damping DN) (HF damping DN) OL OB TFalse norm ops eq_refl) as (s1 & E1 & K1 & A1).
  destruct (infer_any T OP ACC mult small wmean nonzero dist gtv zero g maxSteps bound damping sequential order WF un _ _ (HV zero ZN) (HF zero ZN) (HV damping DN) (HF damping DN) OL OB never s1 K1) as (s & E & [KS U] & J).
  exists s. split. { unfold mp_run in *. destruct (mp_new T OP g TFalse norm) as [s0| | |]; cbn [bind] in *; try discriminate. rewrite foldM_app, E1. cbn [bind foldM mp_step]. rewrite E. auto. }
  destruct (J (A1 eq_refl)) as (_ & J'). destruct J' as [H1 H2]; auto.
  { destruct sequential; auto. destruct EN as [P L]. split; auto. intros v Hv. apply (Permutation_in _ (Permutation_sym P)). apply in_seq. lia. }
  split.
  - intros v Hv. apply (variable_table T fin OP ACC mult small SL g WF FG un DL' AC); auto.
  - intros f Hf. apply (factor_table T fin OP ACC mult small SL g WF FG un DL' AC); auto. intros v Iv. apply H1; [apply (vars_lt T OP g WF f); auto|]. apply (facs_in T OP g). auto.
Qed.

(** C45: if the acyclic schedule is switched off, enough rounds without damping leave the exact marginal of every
    variable on a model without cycles, whatever inference and reset calls came before; the common value is as in C44. *)
Theorem C45_variable_marginals : forall (T : Type) (fin : T -> Prop) (OP : oper T) (ACC : accum T) mult small wmean nonzero dist gtv zero g maxSteps bound damping sequential order norm ops,
  semiring_laws fin OP ACC -> nonzero zero = false -> nonzero damping = false -> wf_gmv g -> fin_gmv fin g -> acyclic g ->
  (norm = TTrue -> division_laws fin OP mult small) -> enough_rounds g dist gtv zero bound sequential order maxSteps ->
  exists s, mp_run T OP ACC mult small wmean nonzero dist gtv zero g maxSteps bound damping sequential order TFalse norm (ops ++ [MpInfer never]) = Ret s /\
  forall v, v < length (v_labels g) ->
  exists out c, mp_marginal T OP ACC mult small g s v = Ret out /\ fin c /\
    marginal_table OP ACC g [v] out c /\
    (connected g -> norm <> TTrue -> c = o_neutral OP) /\
    (connected g -> invertible fin OP c) /\
    (forall x, legal_at g x -> invertible fin OP (marginal_of OP ACC g [] x) -> invertible fin OP c) /\
    (norm = TTrue -> let sum := accumulate_values T (a_op ACC) (a_neutral ACC) out in
       sum = o_neutral OP \/ mult && small sum = true) /\
    (accumulate_values T (a_op ACC) (a_neutral ACC) out = o_neutral OP ->
       forall x, legal_at g x -> marginal_table OP ACC g [v] out (marginal_of OP ACC g [] x)).
Proof.
  intros T fin OP ACC mult small wmean nonzero dist gtv zero g maxSteps bound damping sequential order norm ops SL ZN DN WF FG AC DL EN.
  destruct (rounds_exact T fin OP ACC mult small wmean nonzero dist gtv zero g maxSteps bound damping sequential order norm ops SL ZN DN WF FG AC DL EN) as (s & E & H & _).
  exists s. split; auto. intros v Hv. destruct (H v Hv) as (out & c & E1 & _ & (H1 & _ & H3 & H4 & H5 & H6 & H7 & H8)). exists out, c.
  split; auto. split; auto. split; auto. split; [intros Cn NN; apply H6; auto; destruct norm; auto; congruence|]. split; auto. split; auto. split; auto. intros ->. auto.
Qed.
Print Assumptions C45_variable_marginals.

(** C45: the same for the variables of a factor. *)
Theorem C45_factor_marginals : forall (T : Type) (fin : T -> Prop) (OP : oper T) (ACC : accum T) mult small wmean nonzero dist gtv zero g maxSteps bound damping sequential order norm ops,
  semiring_laws fin OP ACC -> nonzero zero = false -> nonzero damping = false -> wf_gmv g -> fin_gmv fin g -> acyclic g ->
  (norm = TTrue -> division_laws fin OP mult small) -> enough_rounds g dist gtv zero bound sequential order maxSteps ->
  exists s, mp_run T OP ACC mult small wmean nonzero dist gtv zero g maxSteps bound damping sequential order TFalse norm (ops ++ [MpInfer never]) = Ret s /\
  forall f vars F, nth_error (v_factors g) f = Some (vars, F) -> vars <> [] ->
  exists out c, mp_factorMarginal T OP ACC mult small g s f = Ret out /\ fin c /\
    marginal_table OP ACC g vars out c /\
    (connected g -> norm <> TTrue -> c = o_neutral OP) /\
    (connected g -> invertible fin OP c) /\
    (forall x, legal_at g x -> invertible fin OP (marginal_of OP ACC g [] x) -> invertible fin OP c) /\
    (norm = TTrue -> let sum := accumulate_values T (a_op ACC) (a_neutral ACC) out in
       sum = o_neutral OP \/ mult && small sum = true) /\
    (accumulate_values T (a_op ACC) (a_neutral ACC) out = o_neutral OP ->
       forall x, legal_at g x -> marginal_table OP ACC g vars out (marginal_of OP ACC g [] x)).
Proof.
  intros T fin OP ACC mult small wmean nonzero dist gtv zero g maxSteps bound damping sequential order norm ops SL ZN DN WF FG AC DL EN.
  destruct (rounds_exact T fin OP ACC mult small wmean nonzero dist gtv zero g maxSteps bound damping sequential order norm ops SL ZN DN WF FG AC DL EN) as (s & E & _ & H).
  exists s. split; auto. intros f vars F Ef _. assert (Hf : f < length (v_factors g)) by (apply nth_error_Some; congruence).
  assert (EV : MpState.vars T OP g f = vars) by (unfold MpState.vars, fac; rewrite (nth_error_nth _ _ _ Ef); auto).
  destruct (H f Hf) as (out & c & E1 & _ & (H1 & _ & H3 & H4 & H5 & H6 & H7 & H8)). rewrite EV in *. exists out, c.
  split; auto. split; auto. split; auto. split; [intros Cn NN; apply H6; auto; destruct norm; auto; congruence|]. split; auto. split; auto. split; auto. intros ->. auto.
Qed.
Print Assumptions C45_factor_marginals.

(** The hypotheses hold for the example of C44 with both schedules; the values are the smallest energies. *)
Definition gtv_ext (a b : ext) : bool := match a, b with Fin x, Fin y => (y <? x)%Z | _, _ => false end.
Definition rounds_run (sequential : bool) (maxSteps : nat) (ops : list mp_op) : outcome (mp ext) :=
  mp_run ext AdderE MinimizerE false (fun _ => false) (fun _ a _ => a) (fun _ => false) (fun _ _ => Fin 0) gtv_ext (Fin 0)
         ex_gm maxSteps (Fin 0) (Fin 0) sequential [2; 0; 3; 1] TFalse TMaybe ops.
Lemma ex_rounds : forall sequential, enough_rounds ex_gm (fun _ _ => Fin 0) gtv_ext (Fin 0) (Fin 0) sequential [2; 0; 3; 1] 5.
Proof.
  intros sequential. split; [reflexivity|]. split; [reflexivity|]. destruct sequential; [|cbn; lia]. split; [|cbn; lia]. cbn [ex_gm v_labels length seq].
  apply NoDup_Permutation; [repeat constructor; cbn; lia|repeat constructor; cbn; lia|]. intros x. cbn. lia.
Qed.
Example C45_min_sum : forall sequential, exists s, rounds_run sequential 5 [MpInfer (Nat.eqb 0); MpReset; MpInfer never] = Ret s /\
  mp_marginal ext AdderE MinimizerE false (fun _ => false) ex_gm s 1 = Ret [Fin (-2); Fin 0; Fin (-1)] /\
  exists out c, mp_marginal ext AdderE MinimizerE false (fun _ => false) ex_gm s 1 = Ret out /\ marginal_table AdderE MinimizerE ex_gm [1] out c.
Proof.
  intros sequential.
  destruct (C45_variable_marginals ext is_fin AdderE MinimizerE false (fun _ => false) (fun _ a _ => a) (fun _ => false) (fun _ _ => Fin 0) gtv_ext (Fin 0) ex_gm 5 (Fin 0) (Fin 0) sequential [2; 0; 3; 1] TMaybe [MpInfer (Nat.eqb 0); MpReset]) as (s & E & H).
  - apply min_sum_laws.
  - auto.
  - auto.
  - apply ex_wf.
  - apply ex_fin.
  - apply ex_acyclic.
  - discriminate.
  - apply ex_rounds.
  - exists s. split; [exact E|]. destruct (H 1) as (out & c & E1 & _ & M & _); [cbn; lia|]. split; [|exists out, c; auto].
    assert (X : forall r, (match rounds_run sequential 5 [MpInfer (Nat.eqb 0); MpReset; MpInfer never] with Ret s => mp_marginal ext AdderE MinimizerE false (fun _ => false) ex_gm s 1 | _ => Undef end) = r -> r = mp_marginal ext AdderE MinimizerE false (fun _ => false) ex_gm s 1).
    { intros r <-. unfold rounds_run. cbn [app] in E. rewrite E. auto. }
    symmetry. apply X. destruct sequential; vm_compute; reflexivity.
Qed.
(** One step is not enough, with either schedule. *)
Definition rounds_marginal (sequential : bool) (maxSteps v : nat) : outcome (list ext) :=
  s <- rounds_run sequential maxSteps [MpInfer never] ;; mp_marginal ext AdderE MinimizerE false (fun _ => false) ex_gm s v.
Example C45_few_rounds : rounds_marginal false 1 0 <> rounds_marginal false 5 0 /\ rounds_marginal true 1 0 <> rounds_marginal true 5 0.
Proof. split; vm_compute; discriminate. Qed.

(** C46: on every model, with or without cycles, and for every damping, bound on the distance of messages, number of
    steps, schedule, normalization and visitor: every history of inference and reset calls ends, reads and writes only
    inside its arrays, and the marginals can be read and have one value for each label and each tuple of labels. *)
Theorem C46_safe : forall (T : Type) (OP : oper T) (ACC : accum T) mult small wmean nonzero dist gtv zero g maxSteps bound damping sequential order acyc norm ops,
  wf_gmv g -> (sequential = true -> length order = length (v_labels g) /\ Forall (fun v => v < length (v_labels g)) order) ->
  exists s, mp_run T OP ACC mult small wmean nonzero dist gtv zero g maxSteps bound damping sequential order acyc norm ops = Ret s /\
  (forall v labels, nth_error (v_labels g) v = Some labels ->
    exists out, mp_marginal T OP ACC mult small g s v = Ret out /\ length out = labels) /\
  (forall f vars F, nth_error (v_factors g) f = Some (vars, F) ->
    exists out, mp_factorMarginal T OP ACC mult small g s f = Ret out /\ length out = size_of (map (labels_at g) vars)).
Proof.
  intros T OP ACC mult small wmean nonzero dist gtv zero g maxSteps bound damping sequential order acyc norm ops WF OR.
  set (PT := fun (_ _ : nat) (_ : list T) => True).
  assert (HV : forall d, VSd T OP ACC mult small wmean nonzero g PT PT d).
  { intros d s v i f KS Hv Ef. destruct (vprop_ok T OP ACC mult small wmean nonzero g WF s v i f d false KS Hv Ef) as (s' & E & K' & P' & O' & _). exists s'. split; auto. split; auto. split; auto. split; auto. intros _. exact I. }
  assert (HF : forall d, FSd T OP ACC mult small wmean nonzero g (tri_bool norm) PT PT d).
  { intros d s f i v KS Hf Ev. destruct (fprop_ok T OP ACC mult small wmean nonzero g WF s f i v d (tri_bool norm) KS Hf Ev) as (s' & E & K' & P' & O' & _). exists s'. split; auto. split; auto. split; auto. split; auto. intros _. exact I. }
  destruct (run_any T OP ACC mult small wmean nonzero dist gtv zero g maxSteps bound damping sequential order WF (tri_bool norm) PT PT (HV zero) (HF zero) (HV damping) (HF damping) (fun e => proj1 (OR e)) (fun e => proj2 (OR e)) acyc norm ops eq_refl) as (s & E & [KS U] & _).
  exists s. split; auto. split.
  - intros v labels EV. assert (Hv : v < length (v_labels g)) by (apply nth_error_Some; congruence). rewrite (marginal_eq T OP ACC mult small g s v KS Hv). eexists. split; [reflexivity|]. cbn zeta.
    assert (X : length (map (prod_at T OP (bV T g s v) (facs_of T g v)) (seq 0 (labels_at g v))) = labels) by (rewrite map_length, seq_length; unfold labels_at; apply nth_error_nth; auto).
    destruct (tri_bool (m_norm s)); auto. rewrite normalize_length. auto.
  - intros f vars F Ef. assert (Hf : f < length (v_factors g)) by (apply nth_error_Some; congruence).
    assert (EV : MpState.vars T OP g f = vars) by (unfold MpState.vars, fac; rewrite (nth_error_nth _ _ _ Ef); auto).
    rewrite (factorMarginal_eq T OP ACC mult small g WF s f KS Hf). eexists. split; [reflexivity|]. cbn zeta. rewrite EV.
    match goal with |- context [if _ then normalize _ _ _ _ _ ?l else _] => assert (X : length l = size_of (map (labels_at g) vars)) by (rewrite map_length; unfold tuples; rewrite map_length, seq_length; auto) end.
    destruct (tri_bool (m_norm s)); auto. rewrite normalize_length. auto.
Qed.
Print Assumptions C46_safe.

(** A model with a cycle of three variables, with damping, the sequential and the acyclic schedule. *)
Definition cyc_gm : gmv ext := mkGmv [2; 3; 2]
  [([0; 1], fun c => Fin (Z.of_nat (nth 0 c 0 + 2 * nth 1 c 0) mod 4)); ([1; 2], fun c => Fin (Z.of_nat (nth 0 c 0 * nth 1 c 0))); ([0; 2], fun c => Fin (Z.of_nat (3 - nth 0 c 0 - nth 1 c 0)))].
Lemma cyc_wf : wf_gmv cyc_gm.
Proof. split; [repeat constructor; cbn; lia|]. repeat constructor. Qed.
Example C46_cycle : forall acyc, exists s, mp_run ext AdderE MinimizerE false (fun _ => false) (fun _ a _ => a) (fun _ => true) (fun _ _ => Fin 0) gtv_ext (Fin 0)
  cyc_gm 7 (Fin 1) (Fin 1) true [1; 0; 1] acyc TTrue [MpInfer never; MpReset; MpInfer (Nat.eqb 2)] = Ret s /\
  exists out, mp_marginal ext AdderE MinimizerE false (fun _ => false) cyc_gm s 1 = Ret out /\ length out = 3.
Proof.
  intros acyc. destruct (C46_safe ext AdderE MinimizerE false (fun _ => false) (fun _ a _ => a) (fun _ => true) (fun _ _ => Fin 0) gtv_ext (Fin 0)
    cyc_gm 7 (Fin 1) (Fin 1) true [1; 0; 1] acyc TTrue [MpInfer never; MpReset; MpInfer (Nat.eqb 2)]) as (s & E & H & _).
  - apply cyc_wf.
  - intros _. split; [reflexivity|]. repeat constructor; cbn; lia.
  - exists s. split; [exact E|]. apply H. reflexivity.
Qed.
