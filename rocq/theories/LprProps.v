(** C60: reparametrized models. *)
From Coq Require Import ZArith QArith Qcanon Sorted.
From Verif Require Import Base Values GmView GmViewSpec GmViewProofs ShapeSpec ShapeProofs ConstraintModel DualDecompModel.
From Verif Require Import LprModel LprSpec LprProofs LprSerial LprArc LprImm.
Open Scope nat_scope.

(** ** The value of the reparametrized model *)
(** After any writes and loads the reparametrized model has the factors' variables of the model, and its value differs from the value of
    the model by this: what a variable has after reparametrization counts as often as the variable has unary factors, instead of once. *)
Theorem C60_value : forall g h d x, wf_gmv g -> no_constants g -> lpr_run g h = Ret d -> labeling g x ->
  map fst (getReparametrizedModel g d) = map fst (v_factors g) /\
  exists w, (forall v, v < length (v_labels g) -> getVariableValue g d v (nth v x 0) = Ret (w v)) /\
    repa_evaluate (getReparametrizedModel g d) x =
    Ret (total AdderQ g x + sum_over (seq 0 (length (v_labels g))) (fun v => (Qc_of_nat (unaries g v) - 1) * w v))%Qc.
Proof.
  intros g h d x W NC R LX. pose proof (run_shaped g W h d R) as SD. split.
  - unfold getReparametrizedModel, lnf. rewrite map_map. cbn [fst]. rewrite <- (as_nths (v_factors g) ([], fun _ => 0%Qc)) at 2. rewrite map_map. apply map_ext_in. intros f I. apply in_seq in I.
    destruct (nth_error (v_factors g) f) as [fc|] eqn:E; [erewrite nth_error_nth by eauto; auto|]. apply nth_error_None in E. lia.
  - exists (fun v => varval g d v (nth v x 0)). split.
    + intros v Hv. apply (getVariableValue_ok g W); auto. apply (in_shape_at _ _ v LX Hv).
    + rewrite (evaluate_sum g W NC d x SD LX). f_equal. apply (value_formula g W d x SD LX).
Qed.
Print Assumptions C60_value.

(** With one unary factor for each variable (or none for a variable without other factors) every labeling keeps its value. *)
Theorem C60_preserves : forall g h d x, wf_gmv g -> no_constants g -> one_unary_each g -> lpr_run g h = Ret d -> labeling g x ->
  repa_evaluate (getReparametrizedModel g d) x = v_evaluate Qc AdderQ g x.
Proof.
  intros g h d x W NC OU R LX. pose proof (run_shaped g W h d R) as SD. rewrite v_evaluate_total by (auto; apply (labeling_length Qc g x LX)).
  rewrite (evaluate_sum g W NC d x SD LX), (value_formula g W d x SD LX). f_equal. rewrite sum_zero; [ring|].
  intros v I. apply in_seq in I. destruct (OU v) as [E|[E NL]]; [lia| |].
  - rewrite E. replace (Qc_of_nat 1) with 1%Qc by (apply Qc_is_canon; reflexivity). ring.
  - assert (Z : varval g d v (nth v x 0) = 0%Qc); [|rewrite Z; ring]. unfold varval. apply sum_zero. intros f Hf. apply in_seq in Hf.
    destruct (mem v (vars_of g f)) eqn:M; auto. exfalso. apply mem_In in M. destruct (nth_error (v_factors g) f) as [fc|] eqn:EF; [|apply nth_error_None in EF; lia].
    unfold vars_of in M. rewrite EF in M. destruct (fst fc) as [|a [|b r]] eqn:EV; [destruct M| |].
    + destruct M as [->|[]]. unfold unaries in E. apply length_zero_iff_nil in E. assert (I2 : In fc []).
      { rewrite <- E. apply filter_In. split; [eapply nth_error_In; eauto|]. rewrite EV. apply Nat.eqb_refl. } destruct I2.
    + apply NL. exists fc. split; [eapply nth_error_In; eauto|]. unfold pairwise_or_more. rewrite EV. split; [cbn; lia|auto].
Qed.
Print Assumptions C60_preserves.

Definition qz (z : Z) : Qc := Q2Qc (inject_Z z).
Definition lg1 : gmv Qc := mkGmv [2; 2] [([0], fun l => qz (Z.of_nat (nth 0 l 0))); ([1], fun _ => qz 0); ([0; 1], fun l => if nth 0 l 0 =? nth 1 l 0 then qz 0 else qz 3)].
Definition lg1_h : list lpr_op := [LWrite 2 0 1 (qz (-2)); LDeserialize [qz 5]; LWrite 2 1 1 (qz 7)].
Lemma lg1_wf : wf_gmv lg1 /\ no_constants lg1 /\ one_unary_each lg1.
Proof.
  split; [|split].
  - split; [|repeat constructor]. repeat constructor; cbn; lia.
  - repeat constructor; discriminate.
  - intros v H. cbn in H. left. destruct v as [|[|v]]; [reflexivity|reflexivity|lia].
Qed.
Example C60_case : exists d, lpr_run lg1 lg1_h = Ret d /\ d = [[]; []; [[qz 5; qz (-2)]; [qz 0; qz 7]]] /\ repa_evaluate (getReparametrizedModel lg1 d) [1; 0] = Ret (qz 4) /\
  getVariableValue lg1 d 0 1 = Ret (qz 3).
Proof. eexists. split; [vm_compute; reflexivity|]. split; [vm_compute; reflexivity|]. split; vm_compute; reflexivity. Qed.

(** A second unary factor of a variable makes both count twice. *)
Theorem C60_two_unaries_refuted : ~ (forall g h d x, wf_gmv g -> no_constants g -> (forall v, v < length (v_labels g) -> 0 < unaries g v) -> lpr_run g h = Ret d -> labeling g x ->
  repa_evaluate (getReparametrizedModel g d) x = v_evaluate Qc AdderQ g x).
Proof.
  intros H. set (g := mkGmv [2] [([0], fun _ => qz 1); ([0], fun _ => qz 1)]). specialize (H g [] [[]; []] [0]). 
  assert (E : repa_evaluate (getReparametrizedModel g [[]; []]) [0] = v_evaluate Qc AdderQ g [0]).
  { apply H; [| | |reflexivity|].
    - split; [|repeat constructor]. repeat constructor; cbn; lia.
    - repeat constructor; discriminate.
    - intros v Hv. cbn in Hv. destruct v; [cbn; lia|lia].
    - repeat constructor. }
  vm_compute in E. discriminate E.
Qed.
Print Assumptions C60_two_unaries_refuted.

(** Without a unary factor what is moved to a variable is lost. *)
Theorem C60_no_unary_refuted : ~ (forall g h d x, wf_gmv g -> no_constants g -> (forall v, unaries g v <= 1) -> lpr_run g h = Ret d -> labeling g x ->
  repa_evaluate (getReparametrizedModel g d) x = v_evaluate Qc AdderQ g x).
Proof.
  intros H. set (g := mkGmv [2; 2] [([0; 1], fun _ => qz 0)]). specialize (H g [LWrite 0 0 0 (qz 1)] [[[qz 1; qz 0]; [qz 0; qz 0]]] [0; 0]).
  assert (E : repa_evaluate (getReparametrizedModel g [[[qz 1; qz 0]; [qz 0; qz 0]]]) [0; 0] = v_evaluate Qc AdderQ g [0; 0]).
  { apply H; [| | |vm_compute; reflexivity|].
    - split; [|repeat constructor]. repeat constructor; cbn; lia.
    - repeat constructor; discriminate.
    - intros v. cbn. lia.
    - repeat constructor. }
  vm_compute in E. discriminate E.
Qed.
Print Assumptions C60_no_unary_refuted.

(** Factors without variables: the reparametrized model cannot be evaluated. *)
Theorem C60_constant_refuted : exists g d x, wf_gmv g /\ one_unary_each g /\ lpr_run g [] = Ret d /\ labeling g x /\ v_evaluate Qc AdderQ g x = Ret (qz 1) /\
  repa_evaluate (getReparametrizedModel g d) x = Undef.
Proof.
  exists (mkGmv [2] [([], fun _ => qz 1); ([0], fun _ => qz 0)]), [[]; []], [0]. split; [|split; [|split; [|split; [|split]]]].
  - split; [|repeat constructor]. repeat constructor; cbn; lia.
  - intros v H. cbn in H. left. destruct v; [reflexivity|lia].
  - reflexivity.
  - repeat constructor.
  - vm_compute; reflexivity.
  - vm_compute; reflexivity.
Qed.
Print Assumptions C60_constant_refuted.

(** ** Writing, saving and loading *)
(** A dual variable that exists can be written; only it changes. *)
Theorem C60_write : forall g h d f fc k v l x, wf_gmv g -> lpr_run g h = Ret d -> nth_error (v_factors g) f = Some fc -> pairwise_or_more fc ->
  nth_error (fst fc) k = Some v -> l < nth v (v_labels g) 0 ->
  exists d', lpr_run g (h ++ [LWrite f k l x]) = Ret d' /\ rd3 d' f k l = Ret x /\
    forall f' k' l', (f', k', l') <> (f, k, l) -> rd3 d' f' k' l' = rd3 d f' k' l'.
Proof.
  intros g h d f fc k v l x W R EF PF EK HL. pose proof (run_shaped g W h d R) as SD.
  assert (EV : vars_of g f = fst fc) by (unfold vars_of; rewrite EF; auto).
  assert (ID : in_dual g f k l). { unfold in_dual. rewrite EV. split; auto. split; [apply nth_error_Some; congruence|]. rewrite (nth_error_nth _ _ 0 EK). auto. }
  exists (put d f k l x). split; [|split].
  - unfold lpr_run in *. apply bind_inv in R. destruct R as (d0 & E0 & R). rewrite E0. cbn [bind]. rewrite foldM_app, R. cbn [bind foldM lpr_step]. rewrite (wr3_ok g) by auto. auto.
  - rewrite (rd3_ok g) by (auto; apply put_shaped; auto). rewrite (put_dv g) by auto. rewrite !Nat.eqb_refl. auto.
  - intros f' k' l' NE. destruct ID as (L & K & B). unfold rd3, put, rd. destruct (Nat.eq_dec f f') as [<-|NF]; [|rewrite nth_error_upd_neq; auto].
    assert (FD : f < length d) by (rewrite (shaped_len g d SD); apply vars_lt; lia).
    rewrite nth_error_upd_eq by auto. rewrite (nth_error_nth' d [] FD). cbn [bind].
    destruct (Nat.eq_dec k k') as [<-|NK]; [|rewrite nth_error_upd_neq; auto]. assert (KD : k < length (nth f d [])) by (rewrite (shaped_rows g); auto).
    rewrite nth_error_upd_eq by auto. rewrite (nth_error_nth' (nth f d []) [] KD). cbn [bind]. rewrite nth_error_upd_neq; auto.
Qed.
Print Assumptions C60_write.

(** What was saved from a storage is loaded into any storage of the same model. *)
Theorem C60_serialize : forall g h d h' d', wf_gmv g -> lpr_run g h = Ret d -> lpr_run g h' = Ret d' ->
  length (serialize d) = dual_size g /\ deserialize g d' (serialize d) = Ret (d, true).
Proof.
  intros g h d h' d' W R R'. pose proof (run_shaped g W h d R) as SD. pose proof (run_shaped g W h' d' R') as SD'.
  assert (L : length (serialize d) = dual_size g) by (rewrite (serialize_at g) by auto; rewrite map_length; apply poss_size). split; auto.
  destruct (deserialize_ok g d' (serialize d) SD') as (d2 & ok & E & S2 & EO & RT). rewrite L, Nat.eqb_refl in EO. subst ok. rewrite E. f_equal. f_equal.
  apply (serialize_inj g); auto.
Qed.
Print Assumptions C60_serialize.

(** Loading succeeds exactly for sequences of the right length, and then saving gives the sequence back. *)
Theorem C60_deserialize : forall g h d ser, wf_gmv g -> lpr_run g h = Ret d ->
  exists d' ok, deserialize g d ser = Ret (d', ok) /\ (ok = true <-> length ser = dual_size g) /\ (ok = true -> serialize d' = ser).
Proof.
  intros g h d ser W R. destruct (deserialize_ok g d ser (run_shaped g W h d R)) as (d' & ok & E & _ & EO & RT). exists d', ok. split; auto. split; auto.
  rewrite EO. apply Nat.eqb_eq.
Qed.
Print Assumptions C60_deserialize.
Example C60_serialize_case : exists d, lpr_run lg1 lg1_h = Ret d /\ serialize d = [qz 5; qz (-2); qz 0; qz 7] /\ dual_size lg1 = 4.
Proof. eexists. split; [vm_compute; reflexivity|]. split; vm_compute; reflexivity. Qed.

(** A load that fails has changed the storage. *)
Theorem C60_failed_load_refuted : ~ (forall g h d ser d', wf_gmv g -> lpr_run g h = Ret d -> deserialize g d ser = Ret (d', false) -> d' = d).
Proof.
  intros H. assert (E : [[]; []; [[qz 5; qz 0]; [qz 0; qz 0]]] = [[]; []; [[qz 0; qz 0]; [qz 0; qz 0]]]).
  { apply (H lg1 [] _ [qz 5]); [apply lg1_wf| |]; vm_compute; reflexivity. }
  vm_compute in E. discriminate E.
Qed.
Print Assumptions C60_failed_load_refuted.

(** ** Arc consistency *)
(** If every variable is reported consistent, the reported labeling is the best of the reparametrized model, up to the tolerance of the
    comparisons: for each factor of several variables its order times the size of its worst value times epsilon. *)
Theorem C60_arc : forall g h d mx eps, wf_gmv g -> no_constants g -> covered g -> (0 <= eps)%Qc -> lpr_run g h = Ret d ->
  exists mask x, getArcConsistency g mx eps d = Ret (mask, x) /\ length mask = length (v_labels g) /\ labeling g x /\
    (Forall (eq true) mask -> forall (ws : nat -> Qc),
      (forall f fc, nth_error (v_factors g) f = Some fc -> pairwise_or_more fc -> exists F, 
         (forall c, in_shape (at_vars (v_labels g) (fst fc)) c -> repa_view g d f c = Ret (F c)) /\ worst_of mx (at_vars (v_labels g) (fst fc)) F (ws f)) ->
      forall y a b, labeling g y -> repa_evaluate (getReparametrizedModel g d) x = Ret a -> repa_evaluate (getReparametrizedModel g d) y = Ret b ->
      within mx (sum_over (seq 0 (length (v_factors g))) (fun f => match nth_error (v_factors g) f with
        | Some fc => if Nat.leb 2 (length (fst fc)) then Qc_of_nat (length (fst fc)) * Qc_fabs (ws f) * eps else 0 | None => 0 end)%Qc) a b).
Proof.
  intros g h d mx eps W NC CV EP R. pose proof (run_shaped g W h d R) as SD. destruct (arc_total g W NC mx eps d SD) as (mask & x & s & K & E & EX & LM & LX & AV).
  exists mask, x. split; [auto|]. split; [auto|]. split; [auto|]. intros FM ws HW y a b LY EA EB. specialize (AV FM).
  rewrite (evaluate_sum g W NC d x SD LX) in EA. rewrite (evaluate_sum g W NC d y SD LY) in EB. injection EA as <-. injection EB as <-.
  apply within_sum. intros f I. apply in_seq in I. pose proof (factor_within g W NC mx eps EP d s K CV f (at_vars y (vars_of g f)) ltac:(lia) AV) as FW.
  assert (SY : in_shape (shp g f) (at_vars y (vars_of g f))) by (apply (at_vars_shape g W y f LY)). specialize (FW SY).
  unfold at_loc in FW. rewrite <- EX in FW. destruct (nth_error (v_factors g) f) as [fc|] eqn:EF; [|apply nth_error_None in EF; lia].
  assert (EV : vars_of g f = fst fc) by (unfold vars_of; rewrite EF; auto). unfold high in FW. rewrite EV in *. destruct (Nat.leb_spec 2 (length (fst fc))) as [L|L]; auto.
  unfold slack in FW. rewrite EV in FW. destruct (HW f fc EF L) as (F & HF & HWW).
  assert (EW : nth f (ar_worst s) 0%Qc = ws f).
  { assert (NU : is_unary g f = false) by (unfold is_unary; rewrite EV; apply Nat.eqb_neq; lia).
    pose proof (ao_worst g mx d _ _ K f ltac:(lia) NU) as W1. unfold shp in W1. rewrite EV in W1.
    apply (worst_unique mx (at_vars (v_labels g) (fst fc)) F); auto. destruct W1 as [(c & S1 & E1) W2].
    assert (EQ : forall c, in_shape (at_vars (v_labels g) (fst fc)) c -> F c = repaval g d f c).
    { intros c' S'. specialize (HF c' S'). rewrite (view_ok g W d f c' SD) in HF; [congruence| |rewrite EV; auto]. rewrite EV. destruct (fst fc); [cbn in L; lia|discriminate]. }
    split; [exists c; split; auto; rewrite EQ; auto|]. intros c' S'. rewrite EQ by auto. auto. }
  rewrite EW in FW. exact FW.
Qed.
Print Assumptions C60_arc.

(** With exact comparisons (epsilon is zero for integers) and one unary factor for each variable: if every variable is reported consistent,
    the labeling is optimal for the model itself. *)
Theorem C60_arc_optimal : forall g h d mx mask x y, wf_gmv g -> no_constants g -> one_unary_each g -> lpr_run g h = Ret d ->
  getArcConsistency g mx 0%Qc d = Ret (mask, x) -> Forall (eq true) mask -> labeling g y -> better mx (total AdderQ g y) (total AdderQ g x) = false.
Proof.
  intros g h d mx mask x y W NC OU R E FM LY.
  assert (CV : covered g).
  { intros v L. assert (Hv : v < length (v_labels g)). { destruct L as (fc & I & _ & Iv). destruct W as [F _]. rewrite Forall_forall in F. destruct (F fc I) as [_ F2]. rewrite Forall_forall in F2. auto. }
    destruct (OU v Hv) as [E1|[_ NL]]; [lia|contradiction]. }
  pose proof (run_shaped g W h d R) as SD.
  destruct (C60_arc g h d mx 0%Qc W NC CV (Qcle_refl _) R) as (mask' & x' & E' & _ & LX & H). rewrite E in E'. injection E' as <- <-.
  pose proof (C60_preserves g h d x W NC OU R LX) as P1. pose proof (C60_preserves g h d y W NC OU R LY) as P2.
  rewrite v_evaluate_total in P1 by (auto; apply (labeling_length Qc g _ LX)). rewrite v_evaluate_total in P2 by (auto; apply (labeling_length Qc g _ LY)).
  destruct (arc_total g W NC mx 0%Qc d SD) as (_ & _ & s & K & _).
  specialize (H FM (fun f => nth f (ar_worst s) 0%Qc)). assert (G : within mx 0%Qc (total AdderQ g x) (total AdderQ g y)).
  { rewrite <- (sum_zero (seq 0 (length (v_factors g))) (fun f => match nth_error (v_factors g) f with Some fc => if Nat.leb 2 (length (fst fc)) then Qc_of_nat (length (fst fc)) * Qc_fabs (nth f (ar_worst s) 0) * 0 else 0 | None => 0 end)%Qc).
    2: { intros f _. destruct (nth_error (v_factors g) f); auto. destruct (2 <=? length (fst p)); [ring|auto]. }
    apply (H) with (y := y); auto. intros f fc EF PF. exists (repaval g d f). assert (EV : vars_of g f = fst fc) by (unfold vars_of; rewrite EF; auto). rewrite <- EV. split.
    - intros c S. apply (view_ok g W); auto. rewrite EV. unfold pairwise_or_more in PF. destruct (fst fc); [cbn in PF; lia|discriminate].
    - apply (ao_worst g mx d _ _ K f); [apply nth_error_Some; congruence|]. unfold is_unary. rewrite EV. unfold pairwise_or_more in PF. apply Nat.eqb_neq. lia. }
  unfold within in G. unfold better. revert G. generalize (total AdderQ g x) (total AdderQ g y). intros a b G. destruct mx; apply qlt_false; revert G.
  - replace (b - 0)%Qc with b by ring. auto.
  - replace (b + 0)%Qc with b by ring. auto.
Qed.
Print Assumptions C60_arc_optimal.
Example C60_arc_case : exists d, lpr_run lg1 [LWrite 2 0 1 (qz 1)] = Ret d /\ getArcConsistency lg1 false 0%Qc d = Ret ([true; true], [0; 0]).
Proof. eexists. split; vm_compute; reflexivity. Qed.

(** A variable without a unary factor gets label zero and counts as consistent, whatever its factors say. *)
Theorem C60_arc_no_unary_refuted : ~ (forall g h d mx mask x y a b, wf_gmv g -> no_constants g -> lpr_run g h = Ret d -> getArcConsistency g mx 0%Qc d = Ret (mask, x) -> Forall (eq true) mask ->
  labeling g y -> repa_evaluate (getReparametrizedModel g d) x = Ret a -> repa_evaluate (getReparametrizedModel g d) y = Ret b -> better mx b a = false).
Proof.
  intros H. set (g := mkGmv [2; 2] [([0; 1], fun l => qz (- Z.of_nat (nth 0 l 0)))]).
  assert (E : better false (qz (-1)) (qz 0) = false).
  { apply (H g [] [[[qz 0; qz 0]; [qz 0; qz 0]]] false [true; true] [0; 0] [1; 0]); try (vm_compute; reflexivity).
    - split; [|repeat constructor]. repeat constructor; cbn; lia.
    - repeat constructor; discriminate.
    - repeat constructor.
    - repeat constructor. }
  vm_compute in E. discriminate E.
Qed.
Print Assumptions C60_arc_no_unary_refuted.

(** The converse fails: for factors whose worst value is zero the comparison has no tolerance at all, and equally good labels are rejected. *)
Theorem C60_arc_ties_refuted : ~ (forall g h d mx eps mask x, wf_gmv g -> no_constants g -> one_unary_each g -> (0 < eps)%Qc -> lpr_run g h = Ret d -> getArcConsistency g mx eps d = Ret (mask, x) ->
  (forall f c fc, nth_error (v_factors g) f = Some fc -> in_shape (at_vars (v_labels g) (fst fc)) c -> exists a b, repa_view g d f (at_vars x (fst fc)) = Ret a /\ repa_view g d f c = Ret b /\ better mx b a = false) ->
  Forall (eq true) mask).
Proof.
  intros H. set (g := mkGmv [2; 2] [([0], fun l => qz (- Z.of_nat (nth 0 l 0))); ([1], fun l => qz (- Z.of_nat (nth 0 l 0))); ([0; 1], fun l => qz 0)]).
  assert (F : Forall (eq true) [false; false]).
  { apply (H g [] [[]; []; [[qz 0; qz 0]; [qz 0; qz 0]]] false (qz 1) [false; false] [1; 1]); try (vm_compute; reflexivity).
    - split; [|repeat constructor]. repeat constructor; cbn; lia.
    - repeat constructor; discriminate.
    - intros v Hv. cbn in Hv. left. destruct v as [|[|v]]; [reflexivity|reflexivity|lia].
    - intros f c fc EF SC. destruct f as [|[|[|f]]]; [| | |destruct f; discriminate EF]; injection EF as <-; cbn in SC.
      + inversion SC as [|l ? ? ? L S']; subst. inversion S'; subst. exists (qz (-1)), (qz (- Z.of_nat l)). destruct l as [|[|l]]; [| |cbn in L; lia]; (split; [|split]); vm_compute; reflexivity.
      + inversion SC as [|l ? ? ? L S']; subst. inversion S'; subst. exists (qz (-1)), (qz (- Z.of_nat l)). destruct l as [|[|l]]; [| |cbn in L; lia]; (split; [|split]); vm_compute; reflexivity.
      + inversion SC as [|l ? ? ? L S']; subst. inversion S' as [|l' ? ? ? L' S'']; subst. inversion S''; subst. exists (qz 0), (qz 0).
        destruct l as [|[|l]]; [| |cbn in L; lia]; (destruct l' as [|[|l']]; [| |cbn in L'; lia]); (split; [|split]); vm_compute; reflexivity. }
  inversion F; discriminate.
Qed.
Print Assumptions C60_arc_ties_refuted.

(** ** Immovable labels *)
(** Models with factors of at most two variables, all variables with the same number of labels: the call writes dual variables only (so the
    model keeps its value, C60_preserves), the immovable labels get dual variables zero, and each pairwise factor has no values better than
    zero except for pairs of immovable labels. *)
Theorem C60_immovable : forall g h d mx k imm, wf_gmv g -> lpr_run g h = Ret d -> 0 < k -> Forall (eq k) (v_labels g) ->
  Forall (fun fc => length (fst fc) <= 2) (v_factors g) -> length imm = length (v_labels g) -> Forall (fun m => length m = k) imm ->
  exists d' h', reparametrizeImmovable g mx d imm = Ret d' /\ lpr_run g (h ++ h') = Ret d' /\
    forall f u v F, nth_error (v_factors g) f = Some ([u; v], F) -> forall a b, a < k -> b < k ->
      (nth a (nth u imm []) false = true -> rd3 d' f 0 a = Ret 0%Qc) /\ (nth b (nth v imm []) false = true -> rd3 d' f 1 b = Ret 0%Qc) /\
      (nth a (nth u imm []) false = false \/ nth b (nth v imm []) false = false -> exists q, getFactorValue g d' f [a; b] = Ret q /\ better mx q 0%Qc = false).
Proof.
  intros g h d mx k imm W R KP SL O2 IL IK. pose proof (run_shaped g W h d R) as SD.
  assert (SL' : forall v, v < length (v_labels g) -> nth v (v_labels g) 0 = k). { intros v Hv. rewrite Forall_forall in SL. symmetry. apply SL. apply nth_In. auto. }
  assert (O2' : forall f, length (vars_of g f) <= 2). { intros f. unfold vars_of. destruct (nth_error (v_factors g) f) as [fc|] eqn:E; [|cbn; lia]. rewrite Forall_forall in O2. apply O2. eapply nth_error_In; eauto. }
  destruct (imm_all g W mx k KP SL' imm IL IK O2' d SD) as (d' & E & WR & AS). pose proof (writes_shaped g d d' SD WR) as SD'. destruct WR as (h' & _ & EH).
  exists d', h'. split; auto. split.
  { unfold lpr_run in *. apply bind_inv in R. destruct R as (d0 & E0 & R). rewrite E0. cbn [bind]. rewrite foldM_app, R. auto. }
  intros f u v F EF a b Ha Hb. assert (EV : vars_of g f = [u; v]) by (unfold vars_of; rewrite EF; auto).
  assert (Hf : f < length (v_factors g)) by (apply nth_error_Some; congruence). destruct (AS f u v Hf EV) as [S1 S2]. split; [|split].
  - intros FX. rewrite (rd3_ok g) by (auto; apply (in_dual_2 g W k KP SL' imm IL f u v EV); lia). rewrite (S1 0 a); auto.
  - intros FX. rewrite (rd3_ok g) by (auto; apply (in_dual_2 g W k KP SL' imm IL f u v EV); lia). rewrite (S1 1 b); auto.
  - intros FX. exists (pairv g f d' 0 a b). split; [|apply S2; auto]. apply (pair_get g W k KP SL' imm IL f u v EV d' 0 a b); auto.
Qed.
Print Assumptions C60_immovable.
Example C60_immovable_case : exists d', reparametrizeImmovable lg1 false [[]; []; [[qz 1; qz 2]; [qz (-9); qz 4]]] [[true; false]; [false; false]] = Ret d' /\
  d' = [[]; []; [[qz 0; qz 6]; [qz 0; qz 13]]].
Proof. eexists. split; vm_compute; reflexivity. Qed.

(** The number of labels of the wrong variable is used: values better than zero remain ... *)
Theorem C60_immovable_refuted : exists g d' u v F a b q, wf_gmv g /\ Forall (fun fc => length (fst fc) <= 2) (v_factors g) /\ 
  let imm := map (repeat false) (v_labels g) in (exists d, lpr_run g [] = Ret d /\ reparametrizeImmovable g false d imm = Ret d') /\ nth_error (v_factors g) 0 = Some ([u; v], F) /\
  a < nth u (v_labels g) 0 /\ b < nth v (v_labels g) 0 /\ getFactorValue g d' 0 [a; b] = Ret q /\ better false q 0%Qc = true.
Proof.
  exists (mkGmv [1; 1; 2; 2] [([2; 3], fun l => qz (- Z.of_nat (nth 0 l 0 * nth 1 l 0)))]), [[[qz 0; qz 0]; [qz 0; qz 0]]], 2, 3, (fun l => qz (- Z.of_nat (nth 0 l 0 * nth 1 l 0))), 1, 1, (qz (-1)).
  split; [split; [repeat constructor; cbn; lia|repeat constructor]|]. split; [repeat constructor; cbn; lia|]. cbv zeta.
  split; [exists [[[qz 0; qz 0]; [qz 0; qz 0]]]; split; vm_compute; reflexivity|]. split; [reflexivity|]. split; [cbn; lia|]. split; [cbn; lia|]. split; vm_compute; reflexivity.
Qed.
Print Assumptions C60_immovable_refuted.
(** ... or labels are read that do not exist. *)
Theorem C60_immovable_undefined_refuted : exists g, wf_gmv g /\ Forall (fun fc => length (fst fc) <= 2) (v_factors g) /\ 
  exists d, lpr_run g [] = Ret d /\ reparametrizeImmovable g false d (map (repeat false) (v_labels g)) = Undef.
Proof.
  exists (mkGmv [3; 3; 2; 2] [([2; 3], fun l => qz 0)]). split; [split; [repeat constructor; cbn; lia|repeat constructor; cbn; lia]|]. split; [repeat constructor; cbn; lia|].
  exists [[[qz 0; qz 0]; [qz 0; qz 0]]]; split; vm_compute; reflexivity.
Qed.
Print Assumptions C60_immovable_undefined_refuted.

(** The accumulated value is not reset between the labels: too much is moved to the variables, and a movable label may have no value zero left. *)
Theorem C60_immovable_tight_refuted : ~ (forall g h d d' mx k imm f u v F b, wf_gmv g -> lpr_run g h = Ret d -> 0 < k -> Forall (eq k) (v_labels g) ->
  Forall (fun fc => length (fst fc) <= 2) (v_factors g) -> length imm = length (v_labels g) -> Forall (fun m => length m = k) imm ->
  reparametrizeImmovable g mx d imm = Ret d' -> nth_error (v_factors g) f = Some ([u; v], F) -> b < k -> nth b (nth v imm []) false = false ->
  exists a, a < k /\ getFactorValue g d' f [a; b] = Ret 0%Qc).
Proof.
  intros H. destruct (H lg1 [LDeserialize [qz 1; qz 2; qz (-9); qz 4]] [[]; []; [[qz 1; qz 2]; [qz (-9); qz 4]]] [[]; []; [[qz 0; qz 6]; [qz 0; qz 13]]] false 2 [[true; false]; [false; false]]
    2 0 1 (fun l => if nth 0 l 0 =? nth 1 l 0 then qz 0 else qz 3) 1) as (a & La & E).
  - apply lg1_wf.
  - vm_compute; reflexivity.
  - lia.
  - repeat constructor.
  - repeat constructor.
  - reflexivity.
  - repeat constructor.
  - vm_compute; reflexivity.
  - reflexivity.
  - lia.
  - reflexivity.
  - destruct a as [|[|a]]; [vm_compute in E; discriminate E..|lia].
Qed.
Print Assumptions C60_immovable_tight_refuted.
