(** LPCplex: the linear program stands for the graphical model. *)
From Coq Require Import ZArith QArith Qcanon Sorted.
From Verif Require Import Base Values GmView GmViewSpec GmViewProofs ShapeSpec ShapeProofs ConstraintModel DualDecompModel FactorOpsModel LprSpec HoeProofs LprProofs LpcModel LpcSpec LpcProofs LpcPoint LpcUse.
From Verif Require DecompProofs RedInfer.
Open Scope nat_scope.

(** C63.  Building the linear program, adding constraints on existing, distinct LP variables and solving never fail. *)
Theorem C63_runs : forall (g : gmv Qc) (integer : bool) (raw : Qc) (h : list lpc_op), wf_gmv g -> legal (lp_size g) (added h) ->
  exists s, lpc_run g integer raw h = Ret s /\ length (lp_obj (lc_lp s)) = lp_size g.
Proof.
  intros g integer raw h W LG. rewrite <- NN_size in *. destruct (run_inv g W integer raw h LG) as (s & R & I). exists s. split; [exact R|]. apply (obj_len g integer raw _ s I).
Qed.
Print Assumptions C63_runs.

(** Every labeling has a point; its objective value plus the constant is the labeling's value; the linear program admits it exactly if
    the added constraints hold. *)
Theorem C63_labelings : forall (g : gmv Qc) (integer : bool) (raw : Qc) (h : list lpc_op) (s : lpc) (x : list nat),
  wf_gmv g -> legal (lp_size g) (added h) -> lpc_run g integer raw h = Ret s -> labeling g x ->
  (exists p, point_of g s x p) /\
  forall p, point_of g s x p ->
    (dot (lp_obj (lc_lp s)) p + lc_const s)%Qc = total AdderQ g x /\
    (feasible (lc_lp s) p <-> Forall (holds p) (added h)).
Proof.
  intros g integer raw h s x W LG R LX. rewrite <- NN_size in *. destruct (run_inv g W integer raw h LG) as (s' & R' & I). rewrite R in R'. injection R' as <-. split.
  - destruct (point_exists g x LX) as (p & LP & P & _). exists p. apply (point_iff g W integer raw _ s I); assumption.
  - intros p P. assert (LP : length p = NN g) by (rewrite <- (obj_len g integer raw _ s I); apply P). apply (point_iff g W integer raw _ s I p x LX LP) in P. split; [apply (energy g W integer raw _ s I); assumption|apply (point_feasible g W integer raw _ s I p x); assumption].
Qed.
Print Assumptions C63_labelings.

(** Conversely, an admitted point whose entries for the labels of variables are zeros and ones is the point of a labeling. *)
Theorem C63_integral_points : forall (g : gmv Qc) (integer : bool) (raw : Qc) (h : list lpc_op) (s : lpc) (p : list Qc),
  wf_gmv g -> legal (lp_size g) (added h) -> lpc_run g integer raw h = Ret s -> feasible (lc_lp s) p ->
  (integer = true \/ forall v l i, v < length (v_labels g) -> l < nth v (v_labels g) 0 -> lpNodeVi s v l = Ret i -> nth i p 0%Qc = 0%Qc \/ nth i p 0%Qc = 1%Qc) ->
  exists x, labeling g x /\ point_of g s x p.
Proof.
  intros g integer raw h s p W LG R F B. rewrite <- NN_size in *. destruct (run_inv g W integer raw h LG) as (s' & R' & I). rewrite R in R'. injection R' as <-.
  apply (feasible_iff g W integer raw _ s I) in F. destruct F as (LP & BX & BO & LO & _).
  assert (BB : forall i, i < NL g -> nth i p 0%Qc = 0%Qc \/ nth i p 0%Qc = 1%Qc).
  { destruct B as [B|B]; [apply BO; exact B|]. intros i Hi.
    assert (J : In i (map fst (nwrites g))). { pose proof (keys_ok g) as K. apply (f_equal (firstn (NL g))) in K. unfold NN in K. rewrite seq_app, map_app, !firstn_app in K. rewrite seq_length, Nat.sub_diag, firstn_O, app_nil_r in K. rewrite (firstn_all2 (seq 0 (NL g))) in K by (rewrite seq_length; lia).
      assert (LN : length (map fst (nwrites g)) = NL g). { unfold nwrites. rewrite flat_map_concat_map, concat_map, map_map, <- flat_map_concat_map. rewrite (flat_map_ext _ (fun v => map (fun i => 0 + psum (lab g) v + i) (seq 0 (lab g v)))) by (intros v; rewrite map_map; reflexivity). rewrite keys_seq, seq_length. apply off_NL. }
      rewrite LN, Nat.sub_diag, firstn_O, app_nil_r, firstn_all2 in K by lia. rewrite K. apply in_seq. lia. }
    apply in_map_iff in J. destruct J as ([j q] & <- & J). unfold nwrites in J. apply in_flat_map in J. destruct J as (v & Hv & J). apply in_seq in Hv. apply in_map_iff in J. destruct J as (l & E & J). apply in_seq in J. injection E as <- _. cbn [fst].
    apply (B v l); [lia|apply J|apply (nodeVi g integer raw _ s I); lia]. }
  destruct (integral_point g W p LO) as (x & LX & P); [intros i Hi; apply BX; exact Hi|exact BB|]. exists x. split; [exact LX|]. apply (point_iff g W integer raw _ s I); assumption.
Qed.
Print Assumptions C63_integral_points.

(** After infer() returned NORMAL, with a truthful solver: arg() gives a labeling, value() is its value, bound() is not beaten by any
    labeling that meets the added constraints. *)
Theorem C63_bound : forall (g : gmv Qc) (mx integer : bool) (raw : Qc) (h : list lpc_op) (s s' : lpc) (solve : lp -> sres),
  wf_gmv g -> legal (lp_size g) (added h) -> lpc_run g integer raw h = Ret s -> truthful mx solve -> infer solve s = (true, s') ->
  exists x b, arg g s' = Ret (true, x) /\ labeling g x /\ value g s' = Ret (total AdderQ g x) /\
    bound integer s' = Some b /\ best_meeting g mx s (added h) b.
Proof.
  intros g mx integer raw h s s' solve W LG R T IF. rewrite <- NN_size in *. destruct (run_inv g W integer raw h LG) as (s0 & R' & I). rewrite R in R'. injection R' as <-.
  unfold infer in IF. destruct (solve (lc_lp s)) as [| |sol objv best] eqn:SV; try discriminate. injection IF as <-. destruct (T _ _ _ _ SV) as (F & OV & BB & BL).
  set (s' := mkLpc _ _ _ _ _ _ _ _). assert (I' : inv g integer raw (added h) s') by exact I. pose proof F as F'. apply (feasible_iff g W integer raw _ s I) in F'. destruct F' as (LP & _).
  destruct (arg_ok g W integer raw _ s' I' eq_refl LP) as (x & A & LX & _). exists x. eexists. split; [exact A|]. split; [exact LX|]. split; [apply value_ok; assumption|]. split; [reflexivity|].
  intros y (LY & q & PQ & HQ). assert (LQ : length q = NN g) by (rewrite <- (obj_len g integer raw _ s I); apply PQ). apply (point_iff g W integer raw _ s I q y LY LQ) in PQ.
  pose proof (proj2 (point_feasible g W integer raw _ s I q y LY LQ PQ) HQ) as FQ. rewrite <- (energy g W integer raw _ s I q y LY PQ). cbn [lc_best lc_objv lc_const s'].
  assert (G : forall b, bounds mx (lc_lp s) b -> better mx (dot (lp_obj (lc_lp s)) q + lc_const s)%Qc (b + lc_const s)%Qc = false).
  { intros b Bd. specialize (Bd q FQ). revert Bd. generalize (dot (lp_obj (lc_lp s)) q) as d. generalize (lc_const s) as c. intros c d. unfold better, Qc_lt.
    destruct mx; intros E; [destruct (Qclt_le_dec (b + c) (d + c)) as [Q|]; [|reflexivity]; destruct (Qclt_le_dec b d) as [|Q2]; [discriminate|]|destruct (Qclt_le_dec (d + c) (b + c)) as [Q|]; [|reflexivity]; destruct (Qclt_le_dec d b) as [|Q2]; [discriminate|]]; exfalso; apply (Qclt_not_le _ _ Q); apply Qcplus_le_compat; [exact Q2|apply Qcle_refl|exact Q2|apply Qcle_refl]. }
  apply G. destruct integer eqn:EI; [exact BB|]. apply BL. destruct I as (_ & _ & _ & B0 & _). exact B0.
Qed.
Print Assumptions C63_bound.

(** If the solution's entries for the labels of variables are zeros and ones (always, with integer constraints): the labeling meets the
    added constraints, its value is the solver's objective value plus the constant, and if the solver's value is its bound, no labeling that
    meets the constraints is better. *)
Theorem C63_exact : forall (g : gmv Qc) (mx integer : bool) (raw : Qc) (h : list lpc_op) (s s' : lpc) (solve : lp -> sres) (sol : list Qc) (objv best : Qc),
  wf_gmv g -> legal (lp_size g) (added h) -> lpc_run g integer raw h = Ret s -> truthful mx solve ->
  solve (lc_lp s) = SSol sol objv best -> infer solve s = (true, s') ->
  (integer = true \/ forall v l i, v < length (v_labels g) -> l < nth v (v_labels g) 0 -> lpNodeVi s v l = Ret i -> nth i sol 0%Qc = 0%Qc \/ nth i sol 0%Qc = 1%Qc) ->
  exists x, arg g s' = Ret (true, x) /\ meets g s (added h) x /\ point_of g s x sol /\
    total AdderQ g x = (objv + lc_const s)%Qc /\
    (integer = false \/ best = objv -> bound integer s' = Some (total AdderQ g x) /\ best_meeting g mx s (added h) (total AdderQ g x)).
Proof.
  intros g mx integer raw h s s' solve sol objv best W LG R T SV IF B. pose proof (C63_bound g mx integer raw h s s' solve W LG R T IF) as (x & b & A & LX & _ & BD & BM).
  destruct (T _ _ _ _ SV) as (F & OV & _ & _). destruct (C63_integral_points g integer raw h s sol W LG R F B) as (y & LY & P).
  destruct (C63_labelings g integer raw h s y W LG R LY) as [_ PL]. destruct (PL sol P) as [E FI]. unfold infer in IF. rewrite SV in IF. injection IF as <-.
  assert (x = y) as ->.
  { pose proof LG as LG'. rewrite <- NN_size in LG'. destruct (run_inv g W integer raw h LG') as (s0 & R' & I). rewrite R in R'. injection R' as <-. set (s' := mkLpc _ _ _ _ _ _ _ _) in *. assert (I' : inv g integer raw (added h) s') by exact I.
    assert (LP : length sol = NN g) by (rewrite <- (obj_len g integer raw _ s I); apply P). destruct (arg_ok g W integer raw _ s' I' eq_refl LP) as (x' & A' & _ & U). rewrite A in A'. injection A' as <-. apply U; [exact LY|]. apply (point_iff g W integer raw _ s I); assumption. }
  exists y. split; [exact A|]. split; [split; [exact LY|exists sol; split; [exact P|apply FI; exact F]]|]. split; [exact P|]. split; [rewrite OV; symmetry; exact E|].
  intros Q. assert (BE : bound integer (mkLpc (lc_nodes s) (lc_factors s) (lc_const s) (lc_lp s) true sol objv best) = Some (total AdderQ g y)).
  { cbn [bound lc_started lc_best lc_objv lc_const]. rewrite <- E, <- OV. unfold bound. cbn [lc_started lc_best lc_objv lc_const]. destruct Q as [->| ->]; [reflexivity|destruct integer; reflexivity]. }
  split; [exact BE|]. rewrite BD in BE. injection BE as <-. exact BM.
Qed.
Print Assumptions C63_exact.

(** variable() and factorVariable() of a factor with several variables: nonnegative numbers; those of a variable sum to one, those of a
    factor with a given label of one of its variables sum to that variable's number. *)
Theorem C63_marginals : forall (g : gmv Qc) (mx integer : bool) (raw : Qc) (h : list lpc_op) (s s' : lpc) (solve : lp -> sres),
  wf_gmv g -> legal (lp_size g) (added h) -> lpc_run g integer raw h = Ret s -> truthful mx solve -> infer solve s = (true, s') ->
  (forall v, v < length (v_labels g) -> exists m, variable g s' v = Ret m /\ length m = nth v (v_labels g) 0 /\ Forall (fun q => (0 <= q)%Qc) m /\ sum_over m (fun q => q) = 1%Qc) /\
  (forall f fc, nth_error (v_factors g) f = Some fc -> 2 <= length (fst fc) ->
    let sh := at_vars (v_labels g) (fst fc) in
    exists t, factorVariable g s' f = Ret t /\ length t = size_of sh /\ Forall (fun q => (0 <= q)%Qc) t /\
      forall n v l, nth_error (fst fc) n = Some v -> l < nth v (v_labels g) 0 -> exists m, variable g s' v = Ret m /\
        sum_over (filter (fun k => nth n (coord_of sh k) 0 =? l) (seq 0 (size_of sh))) (fun k => nth k t 0%Qc) = nth l m 0%Qc).
Proof.
  intros g mx integer raw h s s' solve W LG R T IF. rewrite <- NN_size in *. destruct (run_inv g W integer raw h LG) as (s0 & R' & I). rewrite R in R'. injection R' as <-.
  unfold infer in IF. destruct (solve (lc_lp s)) as [| |sol objv best] eqn:SV; try discriminate. injection IF as <-. destruct (T _ _ _ _ SV) as (F & _). clear T SV.
  set (s' := mkLpc _ _ _ _ _ _ _ _). assert (I' : inv g integer raw (added h) s') by exact I. apply (feasible_iff g W integer raw _ s I) in F. destruct F as (LP & BX & _ & (LN & LF) & _). pose proof (NL_NN g) as NLN.
  assert (V : forall v, v < length (v_labels g) -> variable g s' v = Ret (map (fun i => nth (off g v + i) sol 0%Qc) (seq 0 (lab g v)))).
  { intros v Hv. unfold variable. rewrite (rd_nth _ _ v 0 Hv). cbn [bind]. fold (lab g v). rewrite (nodes_rd g integer raw _ s' I' v Hv). cbn [bind]. apply DecompProofs.mapM_ok. intros i J. apply in_seq in J. apply rd_nth. cbn [lc_sol s']. pose proof (off_lt g v i Hv). lia. }
  split.
  - intros v Hv. eexists. split; [apply V; exact Hv|]. split; [rewrite map_length, seq_length; reflexivity|]. split; [|rewrite sum_map; apply LN; exact Hv].
    apply Forall_forall. intros q J. apply in_map_iff in J. destruct J as (i & <- & J). apply in_seq in J. apply BX. pose proof (off_lt g v i Hv). lia.
  - intros f fc E A sh. assert (Hf : f < length (v_factors g)) by (apply nth_error_Some; congruence). pose proof (vars_fc g f fc E) as VF. rewrite <- VF in A |- *. assert (SE : sh = fsh g f) by (unfold sh, fsh; rewrite VF; reflexivity). rewrite SE. clear sh SE.
    assert (FV : factorVariable g s' f = Ret (map (fun k => nth k sol 0%Qc) (seq (foff g f) (size_of (fsh g f))))).
    { unfold factorVariable. rewrite (rd_factor g f Hf). cbn [bind fst]. rewrite (fshape_ok g W f). cbn [bind]. destruct (Nat.eqb_spec (length (vars_of g f)) 1); [lia|]. destruct I as (_ & (FL & FN) & _). cbn [lc_factors s']. rewrite (rd_nth _ _ f 0) by (rewrite FL; exact Hf). cbn [bind]. rewrite (FN f Hf), (fid_foff g f A), shape_size_ok.
      apply DecompProofs.mapM_ok. intros k J. apply in_seq in J. apply rd_nth. cbn [lc_sol s']. rewrite LP. pose proof (foff_lt g f (k - foff g f) Hf) as Q. rewrite fsz_2 in Q by exact A. lia. }
    eexists. split; [exact FV|]. split; [rewrite map_length, seq_length; reflexivity|]. split.
    + apply Forall_forall. intros q J. apply in_map_iff in J. destruct J as (k & <- & J). apply in_seq in J. apply BX. pose proof (foff_lt g f (k - foff g f) Hf) as Q. rewrite fsz_2 in Q by exact A. lia.
    + intros n v l N L. assert (Hn : n < length (vars_of g f)) by (apply nth_error_Some; congruence). pose proof (nth_error_nth _ _ 0 N) as NV. pose proof (var_in g W f n Hn) as Hv. rewrite NV in Hv. eexists. split; [apply V; exact Hv|].
      rewrite (nth_indep _ 0%Qc (nth (off g v + 0) sol 0%Qc)) by (rewrite map_length, seq_length; exact L). rewrite (map_nth (fun i => nth (off g v + i) sol 0%Qc)), seq_nth by exact L. cbn [plus]. rewrite <- NV. rewrite <- (LF f n l Hf A Hn) by (rewrite NV; exact L). unfold sel. rewrite fsz_2 by exact A. apply sum_ext.
      intros k J. apply filter_In in J. destruct J as [J _]. apply in_seq in J. rewrite (nth_indep _ 0%Qc (nth 0 sol 0%Qc)) by (rewrite map_length, seq_length; lia).
      rewrite (map_nth (fun k => nth k sol 0%Qc)), seq_nth by lia. reflexivity.
Qed.
Print Assumptions C63_marginals.

(** ** Examples *)
Definition lq (z : Z) : Qc := Q2Qc (inject_Z z).
(** Two variables with two and three labels; unary factors, a pairwise factor and a constant *)
Definition lex : gmv Qc := mkGmv [2; 3]
  [([], fun _ => lq 5); ([0], fun c => if nth 0 c 0 =? 0 then lq 1 else lq 0); ([1], fun c => lq (Z.of_nat (nth 0 c 0)));
   ([0; 1], fun c => if nth 0 c 0 =? nth 1 c 0 then lq 3 else lq 1); ([0], fun c => if nth 0 c 0 =? 1 then lq 1 else lq 0)].
Lemma lex_wf : wf_gmv lex.
Proof. split; repeat constructor; cbn; lia. Qed.
(** A constraint on the LP variables of label 0 of variable 1 and of labels (1, 1): at most one half together *)
Definition lex_h : list lpc_op := [OAdd [2; 8] [lq 1; lq 1] (lq 0) (Q2Qc (1 # 2)); OInfer (fun _ => SFail)].
Example C63_hyp : legal (lp_size lex) (added lex_h) /\ labeling lex [1; 2] /\ lp_size lex = 11.
Proof.
  split; [|split; [repeat constructor|reflexivity]]. constructor; [|constructor]. split; [|split; [|reflexivity]]; repeat constructor; cbn; intuition lia.
Qed.
Lemma lp_eq_dec : forall a b : lp, {a = b} + {a <> b}.
Proof.
  assert (L : forall a b : list Qc, {a = b} + {a <> b}) by (apply list_eq_dec; apply Qc_eq_dec).
  assert (R : forall a b : Qc * Qc * list Qc, {a = b} + {a <> b}). { intros [[a b] c] [[a' b'] c']. destruct (Qc_eq_dec a a'), (Qc_eq_dec b b'), (L c c'); subst; [left; reflexivity|right; congruence..]. }
  intros [a b c] [a' b' c']. destruct (Nat.eq_dec a a'), (L b b'), (list_eq_dec R c c'); subst; [left; reflexivity|right; congruence..].
Qed.
(** For every model there is a truthful solver that solves its program with integer constraints, and whose value is its bound. *)
Theorem C63_solver_exists : forall (g : gmv Qc) (mx : bool) (raw : Qc) (s : lpc), wf_gmv g -> lpc_run g true raw [] = Ret s ->
  exists solve sol objv, truthful mx solve /\ solve (lc_lp s) = SSol sol objv objv.
Proof.
  intros g mx raw s W R. assert (LG : legal (lp_size g) (added [])) by constructor.
  assert (Z : labeling g (repeat 0 (length (v_labels g)))) by (apply positive_in_shape_0; apply W).
  destruct (RedInfer.pick_ok Qc (better mx) (fun _ => True)) with (A := list nat) (f := total AdderQ g) (l := RedInfer.labelings (v_labels g)) (a0 := repeat 0 (length (v_labels g))) as [IN BE]; auto.
  { intros a _. unfold better, Qc_lt. destruct mx; destruct (Qclt_le_dec a a) as [Q|]; try reflexivity; destruct (Qclt_not_eq _ _ Q); reflexivity. }
  { intros a b c _ _ _. unfold better, Qc_lt. destruct mx; destruct (Qclt_le_dec _ _) as [Q1|]; try discriminate; destruct (Qclt_le_dec _ _) as [Q2|]; try discriminate; intros _ _; destruct (Qclt_le_dec _ _) as [|Q3]; try reflexivity; exfalso; [apply (Qclt_not_le _ _ (Qclt_trans _ _ _ Q2 Q1) Q3)|apply (Qclt_not_le _ _ (Qclt_trans _ _ _ Q1 Q2) Q3)]. }
  { intros a b c _ _ _. unfold better, Qc_lt. destruct mx; destruct (Qclt_le_dec _ _) as [|Q1]; try discriminate; destruct (Qclt_le_dec _ _) as [|Q2]; try discriminate; intros _ _; destruct (Qclt_le_dec _ _) as [Q3|]; try reflexivity; exfalso; [apply (Qclt_not_le _ _ Q3 (Qcle_trans _ _ _ Q1 Q2))|apply (Qclt_not_le _ _ Q3 (Qcle_trans _ _ _ Q2 Q1))]. }
  set (x := RedInfer.pick _ _ _ _ _ _) in *. assert (LX : labeling g x). { destruct IN as [E|IN]; [rewrite <- E; exact Z|apply RedInfer.labelings_In; exact IN]. }
  destruct (C63_labelings g true raw [] s x W LG R LX) as [(p & P) PL]. destruct (PL p P) as [E F]. set (d := dot (lp_obj (lc_lp s)) p) in *.
  exists (fun L => if lp_eq_dec L (lc_lp s) then SSol p d d else SFail), p, d. split; [|destruct (lp_eq_dec (lc_lp s) (lc_lp s)); [reflexivity|contradiction]].
  intros L sol objv best. destruct (lp_eq_dec L (lc_lp s)) as [->|]; [|discriminate]. intros Q. injection Q as <- <- <-.
  assert (B : bounds mx (lc_lp s) d). { intros q FQ. destruct (C63_integral_points g true raw [] s q W LG R FQ (or_introl eq_refl)) as (y & LY & PY). destruct (C63_labelings g true raw [] s y W LG R LY) as [_ PL']. destruct (PL' q PY) as [E' _].
    assert (BY : better mx (total AdderQ g y) (total AdderQ g x) = false) by (apply BE; right; apply RedInfer.labelings_In; exact LY). rewrite <- E, <- E' in BY. revert BY. generalize (dot (lp_obj (lc_lp s)) q) as e. generalize (lc_const s) as c. intros c e. unfold better, Qc_lt.
    destruct mx; intros BY; [destruct (Qclt_le_dec d e) as [Q|]; [|reflexivity]; destruct (Qclt_le_dec (d + c) (e + c)) as [|Q2]; [discriminate|]|destruct (Qclt_le_dec e d) as [Q|]; [|reflexivity]; destruct (Qclt_le_dec (e + c) (d + c)) as [|Q2]; [discriminate|]]; exfalso; apply (Qclt_not_le _ _ Q);  pose proof (Qcplus_le_compat _ _ _ _ Q2 (Qcle_refl (- c))) as Q3; rewrite <- !Qcplus_assoc, Qcplus_opp_r, !Qcplus_0_r in Q3; exact Q3. }
  split; [apply F; constructor|]. split; [reflexivity|]. split; [exact B|intros _; exact B].
Qed.
Print Assumptions C63_solver_exists.
(** If the solver reports failure: arg() gives the labels zero and UNKNOWN, bound() the neutral value. *)
Theorem C63_failure : forall (g : gmv Qc) (integer : bool) (raw : Qc) (h : list lpc_op) (s : lpc) (solve : lp -> sres),
  wf_gmv g -> lpc_run g integer raw h = Ret s -> solve (lc_lp s) = SFail ->
  exists s', infer solve s = (false, s') /\ arg g s' = Ret (false, repeat 0 (length (v_labels g))) /\ labeling g (repeat 0 (length (v_labels g))) /\
    value g s' = Ret (total AdderQ g (repeat 0 (length (v_labels g)))) /\ bound integer s' = None.
Proof.
  intros g integer raw h s solve W R SV. unfold infer. rewrite SV. eexists. split; [reflexivity|]. split; [reflexivity|]. split; [apply positive_in_shape_0; apply W|]. split; [|reflexivity].
  unfold value, arg. cbn [lc_started bind]. apply v_evaluate_total; [exact W|apply repeat_length].
Qed.
Print Assumptions C63_failure.

(** A variable with two labels; its program has the row x0 + x1 = 1 and the objective x0 + 3 x1. *)
Definition lone : gmv Qc := mkGmv [2] [([0], fun c => if nth 0 c 0 =? 0 then lq 1 else lq 3)].
Lemma lone_wf : wf_gmv lone.
Proof. split; repeat constructor; cbn; lia. Qed.
Definition lone_s (integer : bool) : lpc := match lpc_run lone integer (lq 7) [] with Ret s => s | _ => mkLpc [] [] 0%Qc (mkLp 0 [] []) false [] 0%Qc 0%Qc end.
Definition lone_solve (L : lp) : sres := if lp_eq_dec L (lc_lp (lone_s false)) then SSol [1%Qc; 0%Qc] 1%Qc 1%Qc else SFail.
Lemma lone_run integer : lpc_run lone integer (lq 7) [] = Ret (lone_s integer).
Proof. destruct integer; vm_compute; reflexivity. Qed.
Lemma lone_lp : lc_lp (lone_s false) = mkLp 0 [lq 1; lq 3] [(1%Qc, 1%Qc, [1%Qc; 1%Qc])].
Proof. vm_compute. reflexivity. Qed.
(** A truthful solver of a program without integer constraints *)
Example C63_relaxation_hyp : truthful false lone_solve /\ infer lone_solve (lone_s false) = (true, snd (infer lone_solve (lone_s false))).
Proof.
  split; [|unfold infer, lone_solve; destruct (lp_eq_dec _ _); [reflexivity|contradiction]]. intros L sol objv best. unfold lone_solve. destruct (lp_eq_dec L (lc_lp (lone_s false))) as [->|]; [|discriminate]. intros E. injection E as <- <- <-. rewrite lone_lp.
  assert (B : bounds false (mkLp 0 [lq 1; lq 3] [(1%Qc, 1%Qc, [1%Qc; 1%Qc])]) 1%Qc).
  { intros q (LQ & BX & _ & RW). cbn [lp_obj lp_rows] in *. inversion RW as [|? ? R1 _]; subst. cbv beta iota in R1. unfold dot in *. cbn [length seq sum_over fold_right nth] in *. destruct q as [|a [|b [|]]]; try discriminate. cbn [nth] in *.
    destruct (BX 1) as [B1 _]; [cbn; lia|]. cbn [nth] in B1. unfold better, Qc_lt. destruct (Qclt_le_dec _ _) as [Q|]; [|reflexivity]. exfalso. destruct R1 as [R1 _].
    assert (E : (lq 1 * a + (lq 3 * b + 0) = (1 * a + (1 * b + 0)) + (b + b))%Qc). { replace (lq 1) with 1%Qc by (apply Qc_is_canon; reflexivity). replace (lq 3) with (1 + 1 + 1)%Qc by (apply Qc_is_canon; reflexivity). ring. }
    rewrite E in Q. apply (Qclt_not_le _ _ Q). rewrite <- (Qcplus_0_r 1%Qc) at 1. apply Qcplus_le_compat; [exact R1|]. rewrite <- (Qcplus_0_r 0%Qc). apply Qcplus_le_compat; exact B1. }
  split; [|split; [apply Qc_is_canon; reflexivity|split; [exact B|intros _; exact B]]]. split; [reflexivity|]. split; [|split].
  - intros [|[|i]] H; cbn in *; try lia; split; discriminate.
  - intros i H. cbn in H. lia.
  - constructor; [|constructor]. cbv beta iota. split; discriminate.
Qed.

(** "When infer() returns, arg() gives labels": false.  If the solver throws (infer() catches the exception and returns UNKNOWN), arg()
    reads a solution that does not exist. *)
Theorem C63_exception_refuted : ~ (forall (g : gmv Qc) (integer : bool) (raw : Qc) (s : lpc) (solve : lp -> sres),
  wf_gmv g -> lpc_run g integer raw [] = Ret s -> exists r, arg g (snd (infer solve s)) = Ret r).
Proof.
  intros H. destruct (H lone false (lq 7) (lone_s false) (fun _ => SExn) lone_wf (lone_run false)) as (r & E). vm_compute in E. discriminate E.
Qed.
Print Assumptions C63_exception_refuted.
(** "factorVariable() of a factor of one variable is variable() of that variable": false, it is one for every label. *)
Theorem C63_unary_refuted : ~ (forall (g : gmv Qc) (mx integer : bool) (raw : Qc) (s s' : lpc) (solve : lp -> sres) (f v : nat) (fc : list nat * (list nat -> Qc)),
  wf_gmv g -> lpc_run g integer raw [] = Ret s -> truthful mx solve -> infer solve s = (true, s') -> nth_error (v_factors g) f = Some fc -> fst fc = [v] ->
  factorVariable g s' f = variable g s' v).
Proof.
  intros H. destruct C63_relaxation_hyp as [T IF]. specialize (H lone false false (lq 7) (lone_s false) _ lone_solve 0 0 _ lone_wf (lone_run false) T IF eq_refl eq_refl).
  unfold infer, lone_solve in H. destruct (lp_eq_dec (lc_lp (lone_s false)) (lc_lp (lone_s false))) as [|N]; [|apply N; reflexivity]. vm_compute in H. discriminate H.
Qed.
Print Assumptions C63_unary_refuted.
(** "An added constraint holds at every admitted point": false if an LP variable is named twice; the last coefficient counts. *)
Theorem C63_repeated_refuted : ~ (forall (g : gmv Qc) (integer : bool) (raw : Qc) (s : lpc) (idx : list nat) (coefs : list Qc) (lo hi : Qc) (p : list Qc),
  wf_gmv g -> Forall (fun i => i < lp_size g) idx -> length coefs = length idx -> lpc_run g integer raw [OAdd idx coefs lo hi] = Ret s ->
  feasible (lc_lp s) p -> holds p (idx, coefs, lo, hi)).
Proof.
  intros H. destruct (lpc_run lone false (lq 7) [OAdd [0; 0] [lq 1; lq 1] (lq 0) (lq 1)]) as [s| | |] eqn:R; [|vm_compute in R; discriminate R..].
  specialize (H lone false (lq 7) s [0; 0] [lq 1; lq 1] (lq 0) (lq 1) [lq 1; lq 0] lone_wf). destruct H as [_ H]; [repeat constructor|reflexivity|exact R| |vm_compute in H; apply H; reflexivity].
  vm_compute in R. injection R as <-. split; [reflexivity|]. split; [|split].
  - intros [|[|i]] Hi; cbn in *; try lia; split; discriminate.
  - intros i Hi. cbn in Hi. lia.
  - repeat constructor; discriminate.
Qed.
Print Assumptions C63_repeated_refuted.
