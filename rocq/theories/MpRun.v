(** Histories of an object for an acyclic model. *)
From Coq Require Import Sorted Permutation Relations.
From Verif Require Import Base Values OperationsModel GmView GmViewSpec ShapeSpec FactorOpsSpec FactorGraphModel FactorGraphSpec FactorGraphAcyclic FactorOpsAcc MpModel MpSpec MpSum MpState MpMessages MpSchedule MpInfer MpSend MpTables.

Section Exact.
Variable T : Type.
Variable fin : T -> Prop.
Variable OP : oper T.
Variable ACC : accum T.
Variable mult : bool.
Variable small : T -> bool.
Variable wmean : T -> T -> T -> T.
Variable nonzero : T -> bool.
Variable dist : list T -> list T -> T.
Variable gtv : T -> T -> bool.
Variable zero : T.
Variable g : gmv T.
Variable maxSteps : nat.
Variables bound damping : T.
Variable sequential : bool.
Variable order : list nat.
Notation n := (length (v_labels g)).
Notation run := (mp_run T OP ACC mult small wmean nonzero dist gtv zero g maxSteps bound damping sequential order).
Notation step := (mp_step T OP ACC mult small wmean nonzero dist gtv zero g maxSteps bound damping sequential order).
Notation infer := (fun stop => mp_infer T OP ACC mult small wmean nonzero dist gtv zero g stop maxSteps bound damping sequential order).
Notation ok := (MpState.ok T OP g).

Lemma wf_graph : wf_gmv g -> wf_fgraph (fgraph_of T g).
Proof.
  intros WF. split.
  - intros f vs E. cbn [fgraph_of g_fac g_adj] in *. rewrite map_length, seq_length. rewrite nth_error_map in E. destruct (nth_error (v_factors g) f) as [fc|] eqn:Ef; [|discriminate]. injection E as <-.
    destruct WF as [WF _]. rewrite Forall_forall in WF. destruct (WF fc) as [A B]; [eapply nth_error_In; eauto|]. split; auto. rewrite Forall_forall in B. auto.
  - intros v fs E. cbn [fgraph_of g_adj] in E. rewrite nth_error_map in E. destruct (nth_error (seq 0 (nvars T g)) v) as [v'|] eqn:Ev; [|discriminate]. injection E as <-.
    assert (v' = v). { assert (L : v < nvars T g) by (rewrite <- (seq_length (nvars T g) 0); apply nth_error_Some; congruence). rewrite (nth_error_nth' _ 0) in Ev by (rewrite seq_length; auto). rewrite seq_nth in Ev by auto. injection Ev as <-. auto. } subst v'.
    split.
    + unfold facs_of, v_adj. apply sorted_filter, sorted_seq.
    + intros f. rewrite (facs_in T OP g). unfold incident. cbn [fgraph_of g_fac]. split.
      * intros [Hf Iv]. exists (MpState.vars T OP g f). split; auto. rewrite nth_error_map. rewrite (nth_error_nth' _ ([], fun _ => o_neutral OP)) by auto. auto.
      * intros (vs & E & I). rewrite nth_error_map in E. destruct (nth_error (v_factors g) f) as [fc|] eqn:Ef; [|discriminate]. injection E as <-. split; [apply nth_error_Some; congruence|]. unfold MpState.vars, fac. rewrite (nth_error_nth _ _ _ Ef). auto.
Qed.

Hypothesis SL : semiring_laws fin OP ACC.
Hypothesis ZN : nonzero zero = false.
Hypothesis WF : wf_gmv g.
Hypothesis FG : fin_gmv fin g.
Hypothesis AC : acyclic g.
Variable norm : tribool.
Hypothesis DL : norm = TTrue -> division_laws fin OP mult small.
Notation un := (tri_bool norm).
Lemma DL' : un = true -> division_laws fin OP mult small.
Proof. intros H. apply DL. destruct norm; auto; discriminate. Qed.
Definition state_ok (s : mp T) : Prop := ok s /\ m_acyclic s <> TFalse /\ tri_bool (m_norm s) = un.

Lemma ok_params : forall s a b, ok s -> ok (set_params T s a b).
Proof. intros s a b [? ? ? ? ? ? ? ? ?]. constructor; auto. Qed.
Lemma infer_ok : forall stop s, state_ok s -> exists s', infer stop s = Ret s' /\ state_ok s' /\
  ((forall i, stop i = false) ->
    (forall v f, v < n -> In f (facs_of T g v) -> vmsg T OP ACC g (K T fin OP un) v f (current (bF T OP g s' f v))) /\
    (forall f v, f < length (v_factors g) -> In v (MpState.vars T OP g f) -> fmsg T OP ACC g (K T fin OP un) f v (current (bV T g s' v f)))).
Proof.
  intros stop s (KS & NA & U).
  assert (Q : exists s', inferAcyclic T OP ACC mult small wmean nonzero zero g stop (set_params T s TTrue (no_maybe (m_norm s))) = Ret s' /\ state_ok s' /\
    ((forall i, stop i = false) ->
    (forall v f, v < n -> In f (facs_of T g v) -> vmsg T OP ACC g (K T fin OP un) v f (current (bF T OP g s' f v))) /\
    (forall f v, f < length (v_factors g) -> In v (MpState.vars T OP g f) -> fmsg T OP ACC g (K T fin OP un) f v (current (bV T g s' v f))))).
  { set (KK := K T fin OP un).
    destruct (inferAcyclic_ok T OP ACC mult small wmean nonzero zero g WF un (vmsg T OP ACC g KK) (fmsg T OP ACC g KK)
      (vstep T fin OP ACC mult small wmean nonzero SL g WF FG AC KK (K_one T fin OP ACC mult small SL un DL') (K_op T fin OP ACC mult small SL un DL') (K_fin T fin OP ACC mult small SL un DL') zero ZN)
      (fun s f i v => fstep T fin OP ACC mult small wmean nonzero SL g WF FG AC KK (K_one T fin OP ACC mult small SL un DL') (K_op T fin OP ACC mult small SL un DL') (K_fin T fin OP ACC mult small SL un DL') zero ZN un s f i v (K_norm T fin OP mult small un DL'))
      stop (set_params T s TTrue (no_maybe (m_norm s)))) as (s' & E & K1 & A1 & N1 & H).
    - apply ok_params. auto.
    - cbn [set_params m_norm]. rewrite <- U. destruct (m_norm s); auto.
    - exists s'. split; auto. split; auto. split; auto. rewrite A1, N1. cbn [set_params m_acyclic m_norm]. split; [discriminate|]. rewrite <- U. destruct (m_norm s); auto. }
  unfold mp_infer. destruct (m_acyclic s); auto; [congruence|].
  destruct (isAcyclic_spec (fgraph_of T g) (wf_graph WF)) as (b & E & HB). rewrite E. cbn [bind]. assert (b = true) by (apply HB; exact AC). subst b. auto.
Qed.
Lemma step_ok : forall o s, state_ok s -> exists s', step s o = Ret s' /\ state_ok s'.
Proof.
  intros [stop|] s H; cbn [mp_step].
  - destruct (infer_ok stop s H) as (s' & E & K' & _). exists s'. auto.
  - destruct H as (KS & NA & U). destruct (reset_ok T OP g WF s KS) as (s' & E & K' & [P1 P2]). exists s'. split; auto. split; auto. rewrite P1, P2. auto.
Qed.
Lemma steps_ok : forall ops s, state_ok s -> exists s', foldM step ops s = Ret s' /\ state_ok s'.
Proof.
  induction ops as [|o ops IH]; intros s H; cbn [foldM]; [exists s; auto|]. destruct (step_ok o s H) as (s1 & E & H1). rewrite E. cbn [bind]. auto.
Qed.
Lemma run_exact : forall acyc ops, acyc <> TFalse -> exists s, run acyc norm (ops ++ [MpInfer never]) = Ret s /\
  (forall v, v < n -> exists out c, mp_marginal T OP ACC mult small g s v = Ret out /\ length out = labels_at g v /\ good T fin OP ACC mult small g un [v] out c) /\
  (forall f, f < length (v_factors g) -> exists out c, mp_factorMarginal T OP ACC mult small g s f = Ret out /\ length out = size_of (map (labels_at g) (MpState.vars T OP g f)) /\ good T fin OP ACC mult small g un (MpState.vars T OP g f) out c).
Proof.
  intros a ops NA. unfold mp_run. destruct (new_ok T OP g WF a norm) as (s0 & E0 & K0 & A0 & N0). rewrite E0. cbn [bind].
  destruct (steps_ok ops s0) as (s1 & E1 & K1); [split; auto; rewrite A0, N0; auto|]. rewrite foldM_app, E1. cbn [bind foldM mp_step].
  destruct (infer_ok never s1 K1) as (s & E & (KS & _ & U) & H). rewrite E. cbn [bind]. exists s. split; auto. destruct H as [H1 H2]; auto. split.
  - intros v Hv. apply (variable_table T fin OP ACC mult small SL g WF FG un DL' AC); auto.
  - intros f Hf. apply (factor_table T fin OP ACC mult small SL g WF FG un DL' AC); auto. intros v Iv. apply H1; [apply (vars_lt T OP g WF f); auto|]. apply (facs_in T OP g). auto.
Qed.
End Exact.
