(** Histories of an object with any schedule, for any model. *)
From Coq Require Import Sorted Permutation Relations.
From Verif Require Import Base Values GmView GmViewSpec ShapeSpec FactorOpsSpec FactorGraphModel FactorGraphSpec FactorGraphAcyclic MpModel MpSpec MpSum MpState MpMessages MpSchedule MpInfer MpSend MpTables MpRun MpRounds.

Section Histories.
Variable T : Type.
Variable OP : oper T.
Variable ACC : accum T.
Variable mult : bool.
Variable small : T -> bool.
Variable wmean : T -> T -> T -> T.
Variable nonzero : T -> bool.
Variable dist : list T -> list T -> T.
Variable gtv : T -> T -> bool.
Variable zero : T.
Variable g : gmv T.
Variable maxSteps : nat.
Variables bound damping : T.
Variable sequential : bool.
Variable order : list nat.
Notation n := (length (v_labels g)).
Notation run := (mp_run T OP ACC mult small wmean nonzero dist gtv zero g maxSteps bound damping sequential order).
Notation step := (mp_step T OP ACC mult small wmean nonzero dist gtv zero g maxSteps bound damping sequential order).
Notation infer := (fun stop => mp_infer T OP ACC mult small wmean nonzero dist gtv zero g stop maxSteps bound damping sequential order).
Notation ok := (MpState.ok T OP g).
Hypothesis WF : wf_gmv g.
Variable un : bool.
Variables PV PF : nat -> nat -> list T -> Prop.
Notation VSd := (VSd T OP ACC mult small wmean nonzero g PV PF).
Notation FSd := (FSd T OP ACC mult small wmean nonzero g un PV PF).
Hypothesis VZ : VSd zero.
Hypothesis FZ : FSd zero.
Hypothesis VS : VSd damping.
Hypothesis FS : FSd damping.
Hypothesis OL : sequential = true -> length order = n.
Hypothesis OB : sequential = true -> Forall (fun v => v < n) order.
Notation okn := (okn T OP g un).
Notation all_right := (all_right T OP g PV PF).

Lemma infer_any : forall stop s, okn s -> exists s', infer stop s = Ret s' /\ okn s' /\
  (m_acyclic s = TFalse -> m_acyclic s' = TFalse /\
   (acyclic g -> (forall i, stop i = false) -> gtv bound zero = false -> (forall l1 l2, gtv bound (dist l1 l2) = false) ->
    (if sequential then n < maxSteps /\ (forall v, v < n -> In v order) else n <= maxSteps) -> all_right s')).
Proof.
  intros stop s KS.
  assert (QA : forall s0, okn s0 -> exists s', inferAcyclic T OP ACC mult small wmean nonzero zero g stop (set_params T s0 TTrue (no_maybe (m_norm s0))) = Ret s' /\ okn s').
  { intros s0 [K0 U0]. destruct (inferAcyclic_ok T OP ACC mult small wmean nonzero zero g WF un PV PF VZ FZ stop (set_params T s0 TTrue (no_maybe (m_norm s0)))) as (s' & E & K1 & A1 & N1 & _).
    - apply ok_params. auto.
    - cbn [set_params m_norm]. rewrite <- U0. destruct (m_norm s0); auto.
    - exists s'. split; auto. split; auto. rewrite N1. cbn [set_params m_norm]. rewrite <- U0. destruct (m_norm s0); auto. }
  assert (QR : forall s0, okn s0 -> exists s', (if sequential then inferSequential T OP ACC mult small wmean nonzero dist gtv zero g stop maxSteps bound damping order s0
      else inferParallel T OP ACC mult small wmean nonzero dist gtv zero g stop maxSteps bound damping s0) = Ret s' /\ okn s' /\ m_acyclic s' = m_acyclic s0 /\
      (acyclic g -> (forall i, stop i = false) -> gtv bound zero = false -> (forall l1 l2, gtv bound (dist l1 l2) = false) ->
    (if sequential then n < maxSteps /\ (forall v, v < n -> In v order) else n <= maxSteps) -> all_right s')).
  { intros s0 K0. destruct sequential eqn:SQ.
    - destruct (inferSequential_ok T OP ACC mult small wmean nonzero dist gtv zero g WF un PV PF damping VS FS FZ stop maxSteps bound order (OL eq_refl) (OB eq_refl) s0 K0) as (s' & E & K' & [A' _] & J).
      exists s'. split; auto. split; auto. split; auto. intros AC ST B1 B2 [L A]. apply J; auto. apply bound_never; auto.
    - destruct (inferParallel_ok T OP ACC mult small wmean nonzero dist gtv zero g WF un PV PF damping VS FS FZ stop maxSteps bound s0 K0) as (s' & E & K' & [A' _] & J).
      exists s'. split; auto. split; auto. split; auto. intros AC ST B1 B2 L. apply J; auto. apply bound_never; auto. }
  unfold mp_infer. destruct (m_acyclic s) eqn:EA.
  - destruct (QA s KS) as (s' & E & K'). exists s'. split; auto. split; auto. discriminate.
  - destruct (QR s KS) as (s' & E & K' & A' & J). exists s'. split; auto. split; auto. intros _. split; [congruence|auto].
  - destruct (isAcyclic_spec (fgraph_of T g) (wf_graph T OP g WF)) as (b & E & HB). rewrite E. cbn [bind]. destruct b.
    + destruct (QA s KS) as (s' & E' & K'). exists s'. split; auto. split; auto. discriminate.
    + destruct (QR (set_params T s TFalse (m_norm s))) as (s' & E' & K' & A' & J); [split; [apply ok_params; apply KS|apply KS]|]. exists s'. split; [auto|]. split; [auto|]. discriminate.
Qed.
Lemma step_any : forall o s, okn s -> exists s', step s o = Ret s' /\ okn s' /\ (m_acyclic s = TFalse -> m_acyclic s' = TFalse).
Proof.
  intros [stop|] s H; cbn [mp_step].
  - destruct (infer_any stop s H) as (s' & E & K' & A). exists s'. split; auto. split; auto. intros X. apply A. auto.
  - destruct H as [KS U]. destruct (reset_ok T OP g WF s KS) as (s' & E & K' & [P1 P2]). exists s'. split; auto. split; [split; auto; rewrite P2; auto|]. rewrite P1. auto.
Qed.
Lemma steps_any : forall ops s, okn s -> exists s', foldM step ops s = Ret s' /\ okn s' /\ (m_acyclic s = TFalse -> m_acyclic s' = TFalse).
Proof.
  induction ops as [|o ops IH]; intros s H; cbn [foldM]; [exists s; auto|]. destruct (step_any o s H) as (s1 & E & H1 & A1). rewrite E. cbn [bind].
  destruct (IH s1 H1) as (s2 & E2 & H2 & A2). exists s2. auto.
Qed.
Lemma run_any : forall acyc norm ops, tri_bool norm = un -> exists s, run acyc norm ops = Ret s /\ okn s /\ (acyc = TFalse -> m_acyclic s = TFalse).
Proof.
  intros a norm ops U. unfold mp_run. destruct (new_ok T OP g WF a norm) as (s0 & E0 & K0 & A0 & N0). rewrite E0. cbn [bind].
  destruct (steps_any ops s0) as (s1 & E1 & K1 & A1); [split; auto; rewrite N0; auto|]. exists s1. split; auto. split; auto. intros X. apply A1. congruence.
Qed.
End Histories.
