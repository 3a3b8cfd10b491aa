(** Proofs for ReducedInference. *)
From Coq Require Import Sorted.
From Verif Require Import Base Values GmView GmViewSpec GmViewProofs ShapeSpec MovemakerSpec SubmodelModel SubmodelProps DpProofs ManipulatorModel ManipulatorSpec ManipulatorRep ManipulatorProps TentacleModel TentacleSpec TentacleUseSpec TentacleUse TentacleProps RedModel RedSpec.
Open Scope nat_scope.

Section Gen.
Variable T : Type.
Variable OP : oper T.
Variable ACC : accum T.
Variable fin : T -> Prop.
Hypothesis OL : op_laws fin OP.
Hypothesis AL : acc_laws fin OP ACC.
Variable g : gmv T.
Hypothesis W : wf_gmv g.
Hypothesis FG : fin_gmv fin g.
Variable solve_rooted : gmv T -> nat -> outcome (list T * list (list nat)).
Variable solve_free : gmv T -> outcome (list nat).
Variable MO : nat.
Hypothesis HMO : order_at_most MO g.
Hypothesis SR : rooted_exact fin OP ACC MO solve_rooted.
Hypothesis SF : free_exact fin OP ACC MO solve_free.
Notation n := (length (v_labels g)).
Notation nf := (length (v_factors g)).
Notation lab v := (nth v (v_labels g) 0).
Notation tstep := (tstep T OP g FIX solve_rooted solve_free).

(** ** The labels that are fixed *)
Section Known.
Variable kn : nat -> option nat.
Hypothesis KN : forall v a, v < n -> kn v = Some a -> a < lab v.
Definition fix_ops (l : list nat) : list tentop := flat_map (fun i => match kn i with Some a => [TOp (OFix i a)] | None => [] end) l.
Definition fixed_labels : fixes := map kn (seq 0 n).

Lemma fix_state : forall l fx, fold_left tsstep (fix_ops l) (mkTS (mkSS false fx false false false) false) =
  mkTS (mkSS false (fold_left (fun fx i => match kn i with Some a => upd fx i (Some a) | None => fx end) l fx) false false false) false.
Proof. induction l as [|i l IH]; intros fx; cbn [fix_ops flat_map fold_left]; [reflexivity|]. destruct (kn i) as [a|]; cbn [app fold_left]; apply IH. Qed.
Lemma fold_upd : forall l fx v, v < length fx -> nth v (fold_left (fun fx i => match kn i with Some a => upd fx i (Some a) | None => fx end) l fx) None =
  if existsb (Nat.eqb v) l then match kn v with Some a => Some a | None => nth v fx None end else nth v fx None.
Proof.
  induction l as [|i l IH]; intros fx v H; [reflexivity|]. cbn [fold_left existsb]. rewrite IH by (destruct (kn i); rewrite ?length_upd; exact H). destruct (Nat.eqb_spec v i) as [->|N]; cbn [orb].
  - destruct (kn i) as [a|]; [rewrite nth_upd_eq by exact H|]; destruct (existsb _ l); reflexivity.
  - destruct (kn i) as [a|]; [rewrite nth_upd_neq by auto|]; reflexivity.
Qed.
Lemma length_fold_upd : forall l fx, length (fold_left (fun fx i => match kn i with Some a => upd fx i (Some a) | None => fx end) l fx) = length fx.
Proof. induction l as [|i l IH]; intros fx; [reflexivity|]. cbn [fold_left]. rewrite IH. destruct (kn i); rewrite ?length_upd; reflexivity. Qed.
Lemma fix_closed : fold_left tsstep (fix_ops (seq 0 n)) (ts_new n) = mkTS (mkSS false fixed_labels false false false) false.
Proof.
  unfold ts_new, s_new. rewrite fix_state. do 2 f_equal. apply (nth_ext _ _ None None).
  - rewrite length_fold_upd, repeat_length. unfold fixed_labels. rewrite map_length, seq_length. reflexivity.
  - intros v Hv. rewrite length_fold_upd, repeat_length in Hv. rewrite fold_upd by (rewrite repeat_length; exact Hv).
    replace (existsb (Nat.eqb v) (seq 0 n)) with true by (symmetry; apply existsb_exists; exists v; split; [apply in_seq; lia|apply Nat.eqb_refl]).
    unfold fixed_labels. rewrite (nth_indep (map kn (seq 0 n)) None (kn 0)) by (rewrite map_length, seq_length; exact Hv). rewrite map_nth, seq_nth by exact Hv. cbn [Nat.add].
    destruct (kn v); [reflexivity|]. apply nth_repeat.
Qed.
Lemma extends_known z : length z = n -> (extends fixed_labels z <-> forall v a, v < n -> kn v = Some a -> nth v z 0 = a).
Proof.
  intros L. unfold extends. split.
  - intros H v a Hv E. assert (E' : nth_error fixed_labels v = Some (Some a)) by (unfold fixed_labels; rewrite nth_error_map, (nth_error_nth' _ 0) by (rewrite seq_length; exact Hv); rewrite seq_nth by exact Hv; cbn; f_equal; exact E).
    destruct (Forall2_nth_l _ _ _ _ _ _ _ H E') as (k & Ek & ->). apply nth_error_nth. exact Ek.
  - intros H. unfold fixed_labels. rewrite <- L. rewrite <- L in H. clear L. assert (G : forall s, (forall v a, v < length z -> kn (s + v) = Some a -> nth v z 0 = a) -> Forall2 (fun o l => match o with Some k => l = k | None => True end) (map kn (seq s (length z))) z); [|apply G; exact H].
    clear H. induction z as [|x z IH]; intros s H; cbn [length seq map]; constructor.
    + destruct (kn s) as [a|] eqn:E; [|exact I]. apply (H 0 a); cbn; [lia|]. rewrite Nat.add_0_r. exact E.
    + apply IH. intros v a Hv E. apply (H (S v) a); cbn; [lia|]. rewrite Nat.add_succ_r. exact E.
Qed.
Lemma known_labeling : exists z, labeling g z /\ extends fixed_labels z.
Proof.
  exists (map (fun v => match kn v with Some a => a | None => 0 end) (seq 0 n)). assert (L : length (map (fun v => match kn v with Some a => a | None => 0 end) (seq 0 n)) = n) by (rewrite map_length, seq_length; reflexivity).
  assert (NT : forall v, v < n -> nth v (map (fun v => match kn v with Some a => a | None => 0 end) (seq 0 n)) 0 = match kn v with Some a => a | None => 0 end).
  { intros v Hv. set (h := fun v => match kn v with Some a => a | None => 0 end). rewrite (nth_indep _ 0 (h 0)) by (rewrite map_length, seq_length; exact Hv). rewrite map_nth, seq_nth by exact Hv. reflexivity. }
  split; [|apply extends_known; [exact L|]; intros v a Hv E; rewrite NT by exact Hv; rewrite E; reflexivity].
  unfold labeling, in_shape. destruct W as [_ P]. unfold positive in P. assert (LT : forall v, v < n -> match kn v with Some a => a | None => 0 end < lab v).
  { intros v Hv. destruct (kn v) as [a|] eqn:E; [eapply KN; eassumption|]. rewrite Forall_forall in P. apply P. apply nth_In. exact Hv. }
  clear - LT. revert LT. generalize (v_labels g). intros l. assert (G : forall l s, (forall v, v < length l -> match kn (s + v) with Some a => a | None => 0 end < nth v l 0) -> Forall2 lt (map (fun v => match kn v with Some a => a | None => 0 end) (seq s (length l))) l).
  { clear. induction l as [|k l IH]; intros s H; cbn [length seq map]; constructor.
    - specialize (H 0). rewrite Nat.add_0_r in H. apply H. cbn. lia.
    - apply IH. intros v Hv. specialize (H (S v)). rewrite Nat.add_succ_r in H. apply H. cbn. lia. }
  intros LT. apply (G l 0). exact LT.
Qed.

(** ** Histories *)
Lemma legal_app : forall ops ops' s t, tent_legal_run g OP solve_rooted solve_free s t ops ->
  (forall t', foldM tstep ops t = Ret t' -> tent_legal_run g OP solve_rooted solve_free (fold_left tsstep ops s) t' ops') -> tent_legal_run g OP solve_rooted solve_free s t (ops ++ ops').
Proof.
  induction ops as [|o ops IH]; intros ops' s t L H; [apply H; reflexivity|]. cbn [app tent_legal_run] in *. destruct L as [L1 L2]. split; [exact L1|]. intros t' E. apply IH; [apply L2; exact E|].
  intros t'' E'. apply H. cbn [foldM]. rewrite E. exact E'.
Qed.
Lemma legal_fix : forall l s t, Forall (fun v => v < n) l -> tent_legal_run g OP solve_rooted solve_free s t (fix_ops l).
Proof.
  induction l as [|i l IH]; intros s t F; [exact I|]. inversion F as [|? ? Hi Fl]; subst. cbn [fix_ops flat_map]. destruct (kn i) as [a|] eqn:E; cbn [app tent_legal_run]; [|apply IH; exact Fl].
  split; [split; [exact Hi|eapply KN; eassumption]|]. intros t' _. apply IH. exact Fl.
Qed.
Lemma seq_lt k : k <= n -> Forall (fun v => v < n) (seq 0 k).
Proof. intros H. apply Forall_forall. intros v Hv. apply in_seq in Hv. lia. Qed.
Definition lock_op (b : bool) : tentop := if b then TElim else TOp OLock.
Definition all_ops (te sub : bool) : list tentop := fix_ops (seq 0 n) ++ [lock_op te; TOp (if sub then OBuildSub else OBuild)].
Lemma all_state te sub : tent_state T g (all_ops te sub) = mkTS (mkSS true fixed_labels true (negb sub) sub) te.
Proof. unfold tent_state, all_ops. rewrite fold_left_app, fix_closed. destruct te, sub; reflexivity. Qed.
Lemma all_legal te sub : (te = true -> n <= nf) -> tent_ok T OP g solve_rooted solve_free (all_ops te sub).
Proof.
  intros TE. unfold tent_ok, all_ops. apply legal_app; [apply legal_fix; apply seq_lt; lia|]. intros t' _. rewrite fix_closed. destruct te; cbn [lock_op tent_legal_run].
  - split; [right; intros v Hv; cbn in Hv; apply free_vars_In in Hv; destruct Hv as [Hv _]; unfold fixed_labels in Hv; rewrite map_length, seq_length in Hv; specialize (TE eq_refl); lia|].
    intros t1 _. split; [destruct sub; reflexivity|]. intros; exact I.
  - split; [exact I|]. intros t1 _. split; [destruct sub; reflexivity|]. intros; exact I.
Qed.
Lemma run_parts te sub t : tent_run T OP g solve_rooted solve_free (all_ops te sub) = Ret t ->
  exists t0 t1, foldM tstep (fix_ops (seq 0 n)) (tent_new T g) = Ret t0 /\ tstep t0 (lock_op te) = Ret t1 /\ tstep t1 (TOp (if sub then OBuildSub else OBuild)) = Ret t.
Proof.
  unfold tent_run, all_ops. rewrite foldM_app. destruct (foldM tstep (fix_ops (seq 0 n)) (tent_new T g)) as [t0| | |]; cbn [bind foldM]; try discriminate.
  destruct (tstep t0 (lock_op te)) as [t1| | |] eqn:E1; cbn [bind]; try discriminate. destruct (tstep t1 _) as [t2| | |] eqn:E2; cbn [bind]; try discriminate. intros H. injection H as <-. exists t0, t1. auto.
Qed.
(** *** Fixing all variables *)
Lemma fix_keeps : forall l t t', foldM tstep (fix_ops l) t = Ret t' -> a_mgm (tm_man t') = a_mgm (tm_man t).
Proof.
  induction l as [|i l IH]; intros t t' E; [injection E as <-; reflexivity|]. cbn [fix_ops flat_map] in E. destruct (kn i) as [a|]; cbn [app foldM] in E; [|apply IH; exact E].
  destruct (tstep t (TOp (OFix i a))) as [t1| | |] eqn:E1; cbn [bind] in E; try discriminate. rewrite (IH _ _ E). cbn in E1. unfold fixVariable in E1. destruct (a_locked (tm_man t)); cbn [bind] in E1; [injection E1 as <-; reflexivity|].
  destruct (wr (a_fix (tm_man t)) i true); cbn [bind] in E1; try discriminate. destruct (wr (a_lab (tm_man t)) i a); cbn [bind] in E1; try discriminate. injection E1 as <-. reflexivity.
Qed.
Lemma ops_length : forall l, length (fix_ops l) <= length l /\ (length (fix_ops l) = length l -> forall v, In v l -> kn v <> None).
Proof.
  induction l as [|i l [IH1 IH2]]; [split; [cbn; lia|intros _ v []]|]. cbn [fix_ops flat_map]. rewrite app_length. fold (fix_ops l). destruct (kn i) as [a|] eqn:E; cbn [length].
  - split; [lia|]. intros H v [<-|Hv]; [congruence|]. apply IH2; [lia|exact Hv].
  - split; [lia|]. intros H. exfalso. lia.
Qed.
Lemma all_fixed ol : length (fix_ops (seq 0 n)) = n -> exists t0 t1 x, foldM tstep (fix_ops (seq 0 n)) (tent_new T g) = Ret t0 /\ tstep t0 (TOp OLock) = Ret t1 /\
  tent_modifiedState2OriginalState T g t1 [] ol = Ret x /\ labeling g x /\ extends fixed_labels x.
Proof.
  intros LN. pose proof (all_legal false false ltac:(discriminate)) as LG. destruct (C20_tentacle_model T OP ACC fin OL AL g W FG solve_rooted solve_free MO HMO SR SF _ LG) as (t & E & left_ & _ & IL & _ & H).
  rewrite all_state in *. cbn [ts_base ss_fix ss_model negb] in *. destruct (H eq_refl) as (LB & H1 & _). destruct (run_parts _ _ _ E) as (t0 & t1 & E0 & E1 & E2).
  assert (LE : left_ = []). { destruct left_ as [|v l]; [reflexivity|]. exfalso. assert (In v (free_vars fixed_labels)) as Hv by (apply IL; left; reflexivity). apply free_vars_In in Hv. destruct Hv as [Hv Fv]. unfold fixed_labels in Hv. rewrite map_length, seq_length in Hv.
    destruct (ops_length (seq 0 n)) as [_ X]. rewrite seq_length in X. apply (X LN v); [apply in_seq; lia|]. unfold is_free, fixed_labels in Fv. rewrite (nth_indep _ None (kn 0)) in Fv by (rewrite map_length, seq_length; exact Hv). rewrite map_nth, seq_nth in Fv by exact Hv. cbn in Fv. destruct (kn v); [discriminate|reflexivity]. }
  subst left_. cbn [labels_of map] in *. destruct (H1 [] ol) as (x & gm' & EX & LX & FX & _); [constructor|]. exists t0, t1, x. split; [exact E0|]. split; [exact E1|]. split; [|auto]. rewrite <- EX.
  pose proof (fix_keeps _ _ _ E0) as K. cbn in E1. injection E1 as <-. cbn [tm_man] in *. cbn in E2. unfold bind in E2. destruct (tent_model T OP g FIX _ (tm_tents t0)) as [m| | |] eqn:EM; try discriminate. injection E2 as <-. cbn [tm_man tm_tents] in *.
  assert (X : a_locked m = true /\ a_fix m = a_fix (tm_man t0) /\ a_lab m = a_lab (tm_man t0)).
  { clear - EM. unfold tent_model in EM. repeat match type of EM with bind ?z _ = _ => destruct z as [?p| | |]; cbn [bind] in EM; try discriminate EM | (let '(_, _) := ?z in _) = _ => destruct z end. injection EM as <-. cbn. auto. }
  destruct X as (X1 & X2 & X3). unfold tent_modifiedState2OriginalState, modifiedState2OriginalState. cbn [tm_man tm_tents a_locked a_mgm a_fix a_lab]. rewrite X1, X2, X3, LB, K. reflexivity.
Qed.
(** *** What the reduced models are good for *)
Definition agrees_known (z : list nat) : Prop := forall v a, v < n -> kn v = Some a -> nth v z 0 = a.
Lemma fin_total z : labeling g z -> fin (total OP g z).
Proof. apply (total_fin' T OP fin OL g W FG). Qed.
Lemma in_shape_length (y s : list nat) : in_shape s y -> length y = length s.
Proof. intros H. unfold in_shape in H. induction H; cbn; congruence. Qed.
Lemma in_shape_positive (y s : list nat) : in_shape s y -> positive s.
Proof. intros H. unfold in_shape in H. unfold positive. induction H; constructor; auto; lia. Qed.
Lemma model_part te ol : (te = true -> n <= nf) -> exists t0 t1 t, foldM tstep (fix_ops (seq 0 n)) (tent_new T g) = Ret t0 /\ tstep t0 (lock_op te) = Ret t1 /\ tstep t1 (TOp OBuild) = Ret t /\
  let gm := a_mgm (tm_man t) in usable fin OP gm /\
  (forall y, in_shape (s_labels gm) y -> exists x, tent_modifiedState2OriginalState T g t y ol = Ret x /\ labeling g x /\ agrees_known x /\ has_value OP gm y (total OP g x)) /\
  (forall z, labeling g z -> agrees_known z -> exists y e, in_shape (s_labels gm) y /\ has_value OP gm y e /\ fin e /\ a_bop ACC (total OP g z) e = false).
Proof.
  intros TE. pose proof (all_legal te false TE) as LG. destruct (C20_tentacle_model T OP ACC fin OL AL g W FG solve_rooted solve_free MO HMO SR SF _ LG) as (t & E & left_ & _ & _ & _ & H).
  rewrite all_state in *. cbn [ts_base ss_fix ss_model negb] in *. destruct (H eq_refl) as (LB & H1 & H2). destruct (run_parts _ _ _ E) as (t0 & t1 & E0 & E1 & E2). exists t0, t1, t. split; [exact E0|]. split; [exact E1|]. split; [exact E2|]. cbv zeta. rewrite LB.
  assert (FV : forall y e, in_shape (labels_of g left_) y -> has_value OP (a_mgm (tm_man t)) y e -> fin e).
  { intros y e HY (gm2 & EV). destruct (H1 y [] HY) as (x & gm3 & _ & LX & _ & _ & EV3). rewrite EV in EV3. injection EV3 as _ ->. apply fin_total. exact LX. }
  split; [|split].
  - destruct known_labeling as (z & LZ & XZ). destruct (H2 z LZ XZ) as (HS & _). unfold usable. rewrite LB. split; [eapply in_shape_positive; exact HS|]. intros y HY. destruct (H1 y [] HY) as (x & gm' & _ & LX & _ & _ & EV). exists (total OP g x). split; [exists gm'; exact EV|apply fin_total; exact LX].
  - intros y HY. destruct (H1 y ol HY) as (x & gm' & EX & LX & FX & _ & EV). exists x. split; [exact EX|]. split; [exact LX|]. split; [exact (proj1 (extends_known x (in_shape_length _ _ LX)) FX)|exists gm'; exact EV].
  - intros z LZ KZ. destruct (H2 z LZ) as (HS & gm' & e & EV & B); [apply extends_known; [apply in_shape_length; exact LZ|exact KZ]|]. exists (at_vars z left_), e. split; [exact HS|]. split; [exists gm'; exact EV|]. split; [|exact B]. eapply FV; [exact HS|exists gm'; exact EV].
Qed.
Definition combined (es : list T) : T := fold_left (fun acc e => o_op OP e acc) es (o_neutral OP).
Lemma subs_part te ol : (te = true -> n <= nf) -> exists t0 t1 t, foldM tstep (fix_ops (seq 0 n)) (tent_new T g) = Ret t0 /\ tstep t0 (lock_op te) = Ret t1 /\ tstep t1 (TOp OBuildSub) = Ret t /\
  let subs := a_subs (tm_man t) in
  let fits ys := Forall2 (fun gm y => in_shape (s_labels gm) y) subs ys in
  let values ys es := Forall2 (fun gy e => has_value OP (fst gy) (snd gy) e) (combine subs ys) es in
  Forall (usable fin OP) subs /\
  (forall ys, fits ys -> exists x es, tent_modifiedSubStates2OriginalState T g t ys ol = Ret x /\ labeling g x /\ agrees_known x /\ values ys es /\ Forall fin es /\ total OP g x = combined es) /\
  (forall z, labeling g z -> agrees_known z -> exists ys es, fits ys /\ values ys es /\ Forall fin es /\ a_bop ACC (total OP g z) (combined es) = false).
Proof.
  intros TE. pose proof (all_legal te true TE) as LG. assert (SB : ss_subs (ts_base (tent_state T g (all_ops te true))) = true) by (rewrite all_state; reflexivity).
  destruct (C20_tentacle_submodels T OP ACC fin OL AL g W FG solve_rooted solve_free MO HMO SR SF _ LG SB) as (t & E & H1 & H2). rewrite all_state in H1, H2. cbn [ts_base ss_fix] in H1, H2. cbv zeta in H1, H2.
  destruct (run_parts _ _ _ E) as (t0 & t1 & E0 & E1 & E2). exists t0, t1, t. split; [exact E0|]. split; [exact E1|]. split; [exact E2|]. cbv zeta. set (subs := a_subs (tm_man t)) in *. split; [|split].
  - destruct known_labeling as (z & LZ & XZ). destruct (H2 z LZ XZ) as (ys & _ & HY & _). apply Forall_forall. intros gm Hgm. destruct (In_nth_error _ _ Hgm) as (i & Ei).
    destruct (Forall2_nth_l _ _ _ _ _ _ _ HY Ei) as (yi & Eyi & Si). split; [eapply in_shape_positive; exact Si|]. intros y Sy.
    assert (LY : length ys = length subs) by (clear - HY; induction HY; cbn; congruence).
    assert (HY' : Forall2 (fun gm y => in_shape (s_labels gm) y) subs (upd ys i y)).
    { clear - HY Ei Sy. revert i Ei. induction HY as [|gm0 y0 subs ys H HY IH]; intros i Ei; [destruct i; discriminate|]. destruct i as [|i]; cbn in *; constructor; auto. injection Ei as ->. exact Sy. }
    destruct (H1 _ [] HY') as (x & es & _ & _ & _ & EV & FE & _).
    assert (EY : nth_error (upd ys i y) i = Some y). { assert (i < length ys) by (rewrite LY; apply nth_error_Some; congruence). rewrite (nth_error_nth' _ []) by (rewrite length_upd; assumption). rewrite nth_upd_eq by assumption. reflexivity. }
    destruct (Forall2_nth_l _ _ _ _ _ _ _ EV (nth_error_combine _ _ _ _ _ _ _ Ei EY)) as (e & Ee & V). exists e. split; [exact V|]. rewrite Forall_forall in FE. apply FE. eapply nth_error_In. exact Ee.
  - intros ys HY. destruct (H1 ys ol HY) as (x & es & EX & LX & FX & EV & FE & CE). exists x, es. split; [exact EX|]. split; [exact LX|]. split; [exact (proj1 (extends_known x (in_shape_length _ _ LX)) FX)|]. split; [exact EV|]. split; [exact FE|]. symmetry. exact CE.
  - intros z LZ KZ. destruct (H2 z LZ) as (ys & es & HY & EV & FE & B); [apply extends_known; [apply in_shape_length; exact LZ|exact KZ]|]. exists ys, es. auto.
Qed.
End Known.
End Gen.
