(** C59: ReducedInference. *)
From Coq Require Import QArith Qcanon Sorted.
From Verif Require Import Base Values GmView GmViewSpec GmViewProofs ShapeSpec OperationsModel DualDecompModel GmViewProps HoeModel HoeSpec HoeProofs HoeReduce AlphaBetaSwapSpec FuseModel HqpboModel FuseSpec FuseProofs FuseMoves FuseProps FmProps.
From Verif Require Import SubmodelModel SubmodelProps ManipulatorModel ManipulatorSpec ManipulatorProps TentacleModel TentacleSpec TentacleUseSpec DpNodeModel DpNodeTree TentacleProps RedModel RedSpec RedProofs RedInfer.
Open Scope nat_scope.

Lemma zeros_shape s : positive s -> in_shape s (repeat 0 (length s)).
Proof. intros P. unfold in_shape, positive in *. induction P; cbn; constructor; auto. Qed.
Section Gen.
Variable T : Type.
Variable OP : oper T.
Variable ACC : accum T.
Variable fin : T -> Prop.
Hypothesis OL : op_laws fin OP.
Hypothesis AL : acc_laws fin OP ACC.
Variable g : gmv T.
Hypothesis W : wf_gmv g.
Hypothesis FG : fin_gmv fin g.
(** The solvers for tentacles are exact up to some order of factors. *)
Variable solve_rooted : gmv T -> nat -> outcome (list T * list (list nat)).
Variable solve_free : gmv T -> outcome (list nat).
Variable MO : nat.
Hypothesis HMO : TentacleSpec.order_at_most MO g.
Hypothesis SR : rooted_exact fin OP ACC MO solve_rooted.
Hypothesis SF : free_exact fin OP ACC MO solve_free.
(** Partial optimality, if asked for, returns labels; if tentacles are to be eliminated, there are at least as many factors
    as variables; the algorithm for the reduced models labels every model. *)
Variable par : riparam.
Variable partial : outcome (found T).
Variable inf : subgm T -> outcome (list nat * T).
Hypothesis HP : rp_persistency par = true -> exists f, partial = Ret f /\ finds g f.
Hypothesis HT : rp_tentacle par = true -> length (v_labels g) <= length (v_factors g).
Hypothesis HL : labels_all fin OP inf.
Notation run stops := (ri_run T OP ACC g solve_rooted solve_free par partial inf stops).
Notation keeps_right := (rp_persistency par = true -> forall f, partial = Ret f -> right OP ACC g f).

Lemma run_ok : forall stops, exists s, run stops = Ret s /\ labeling g (ri_state s).
Proof.
  intros stops. unfold ri_run. assert (L0 : labeling g (ri_state (ri_new T ACC g))).
  { apply zeros_shape. apply W. }
  revert L0. generalize (ri_new T ACC g). induction stops as [|st stops IH]; intros s L; [exists s; auto|]. cbn [foldM].
  destruct (infer_ok T OP ACC fin OL AL g W FG solve_rooted solve_free MO HMO SR SF par partial inf HP HT HL st s L) as (s' & E & L' & _). rewrite E. cbn [bind]. apply IH. exact L'.
Qed.
Lemma run_last stops stop : exists s s', run stops = Ret s /\ run (stops ++ [stop]) = Ret s' /\ labeling g (ri_state s) /\ labeling g (ri_state s') /\
  (finished T OP ACC fin g par partial inf s' \/ stopped T par partial stop s s').
Proof.
  destruct (run_ok stops) as (s & E & L). destruct (infer_ok T OP ACC fin OL AL g W FG solve_rooted solve_free MO HMO SR SF par partial inf HP HT HL stop s L) as (s' & E' & L' & D).
  exists s, s'. split; [exact E|]. split; [|auto]. unfold ri_run in *. rewrite foldM_app, E. cbn [bind foldM]. rewrite E'. reflexivity.
Qed.

(** C59: after any calls of infer() with any visitors, arg() is a labeling and value() is its value. *)
Theorem C59_valid : forall stops, exists s x, run stops = Ret s /\ ri_arg T g s = Ret x /\ labeling g x /\ ri_value T OP g s = Ret (total OP g x).
Proof.
  intros stops. destruct (run_ok stops) as (s & E & L). pose proof (RedProofs.in_shape_length _ _ L) as LL. exists s, (ri_state s). split; [exact E|]. split; [|split; [exact L|apply v_evaluate_total; assumption]].
  unfold ri_arg. rewrite <- LL. rewrite (mapM_Ret _ (fun i => nth i (ri_state s) 0)) by (intros i Hi; apply in_seq in Hi; apply rd_nth; lia). rewrite map_nth_seq. reflexivity.
Qed.
(** C59: if an optimal labeling has the labels that partial optimality reports, and the algorithm for the reduced models is
    exact, then the labeling after an infer() that no visitor stops is optimal, whatever reductions are used. *)
Theorem C59_optimal : keeps_right -> exact fin OP ACC inf -> forall stops stop, (forall k, stop k = false) ->
  exists s x, run (stops ++ [stop]) = Ret s /\ ri_arg T g s = Ret x /\ optimal OP ACC g x.
Proof.
  intros R X stops stop NS. destruct (run_last stops stop) as (s & s' & _ & E' & _ & L' & D). exists s', (ri_state s'). split; [exact E'|]. split.
  - pose proof (RedProofs.in_shape_length _ _ L') as LL. unfold ri_arg. rewrite <- LL. rewrite (mapM_Ret _ (fun i => nth i (ri_state s') 0)) by (intros i Hi; apply in_seq in Hi; apply rd_nth; lia). rewrite map_nth_seq. reflexivity.
  - destruct D as [(D & _ & _)|([k K] & _)]; [apply D; [exact R|exact X]|rewrite NS in K; discriminate].
Qed.
(** C59: if no labeling of a reduced model beats the bound of the algorithm, no labeling of the model beats bound() after
    such an infer(). *)
Theorem C59_bound : keeps_right -> bounding fin OP ACC inf -> forall stops stop, (forall k, stop k = false) ->
  exists s, run (stops ++ [stop]) = Ret s /\ bounds OP ACC g (ri_bound s).
Proof.
  intros R X stops stop NS. destruct (run_last stops stop) as (s & s' & _ & E' & _ & L' & D). exists s'. split; [exact E'|].
  destruct D as [(_ & D & _)|([k K] & _)]; [apply D; [exact R|exact X]|rewrite NS in K; discriminate].
Qed.
(** C59: if the bounds of the algorithm are the values of its labelings, bound() is value() after such an infer(). *)
Theorem C59_tight : (forall gm a b, usable fin OP gm -> inf gm = Ret (a, b) -> has_value OP gm a b) -> forall stops stop, (forall k, stop k = false) ->
  exists s, run (stops ++ [stop]) = Ret s /\ ri_value T OP g s = Ret (ri_bound s).
Proof.
  intros TI stops stop NS. destruct (run_last stops stop) as (s & s' & _ & E' & _ & L' & D). exists s'. split; [exact E'|]. unfold ri_value. rewrite v_evaluate_total by (try assumption; apply RedProofs.in_shape_length; exact L').
  destruct D as [(_ & _ & D)|([k K] & _)]; [rewrite D; [reflexivity|exact TI]|rewrite NS in K; discriminate].
Qed.
(** C59: a visitor that stops leaves the labeling of before, or the result is as if it had not stopped.  The bound is
    always a bound if the one of partial optimality is and no value beats the value the constructor stores. *)
Theorem C59_stop : keeps_right -> bounding fin OP ACC inf ->
  bounds OP ACC g (a_ineutral ACC) -> (rp_persistency par = true -> forall f b, partial = Ret f -> f_bound f = Some b -> bounds OP ACC g b) ->
  forall stops stop, exists s s', run stops = Ret s /\ run (stops ++ [stop]) = Ret s' /\ bounds OP ACC g (ri_bound s') /\
    (exact fin OP ACC inf -> optimal OP ACC g (ri_state s') \/ ri_state s' = ri_state s).
Proof.
  intros R BO BN BF stops. assert (B : forall stops, exists s, run stops = Ret s /\ bounds OP ACC g (ri_bound s)).
  { clear stops. intros stops. induction stops as [|stop stops IH] using rev_ind; [exists (ri_new T ACC g); split; [reflexivity|exact BN]|]. destruct IH as (s0 & E0 & B0).
    destruct (run_last stops stop) as (s & s' & E & E' & L & L' & D). rewrite E0 in E. injection E as <-. exists s'. split; [exact E'|].
    destruct D as [(_ & D & _)|(_ & _ & [->|(f & P & EF & FB)])]; [apply D; [exact R|exact BO]|exact B0|apply (BF P f); assumption]. }
  intros stop. destruct (run_last stops stop) as (s & s' & E & E' & L & L' & D). exists s, s'. split; [exact E|]. split; [exact E'|]. split.
  - destruct (B (stops ++ [stop])) as (s1 & E1 & B1). rewrite E' in E1. injection E1 as <-. exact B1.
  - intros X. destruct D as [(D & _ & _)|(_ & D & _)]; [left; apply D; [exact R|exact X]|right; exact D].
Qed.
End Gen.
Print Assumptions C59_optimal.
Print Assumptions C59_bound.
Print Assumptions C59_stop.

(** ** With the solver of the code for tentacles *)
(** C59: for models without factors of more than two variables the tentacles are solved by dynamic programming, so nothing
    has to be supposed about the solvers for tentacles. *)
Theorem C59_pairwise : forall (T : Type) (OP : oper T) (ACC : accum T) (fin : T -> Prop), op_laws fin OP -> acc_laws fin OP ACC -> acc_select fin ACC ->
  forall g : gmv T, wf_gmv g -> fin_gmv fin g -> TentacleSpec.order_at_most 2 g ->
  forall bp_rooted bp_free par partial inf,
  (rp_persistency par = true -> exists f, partial = Ret f /\ finds g f /\ right OP ACC g f) ->
  (rp_tentacle par = true -> length (v_labels g) <= length (v_factors g)) ->
  labels_all fin OP inf -> exact fin OP ACC inf ->
  exists s x, ri_run T OP ACC g (tent_rooted OP ACC bp_rooted) (tent_free OP ACC bp_free) par partial inf [fun _ => false] = Ret s /\ ri_arg T g s = Ret x /\ optimal OP ACC g x.
Proof.
  intros T OP ACC fin OL AL AS g W FG SO bp_rooted bp_free par partial inf HP HT HL X.
  apply (C59_optimal T OP ACC fin OL AL g W FG _ _ 2 SO (dp_rooted_exact T OP ACC fin OL AL AS bp_rooted) (dp_free_exact T OP ACC fin OL AL AS bp_free) par partial inf) with (stops := []); auto.
  - intros P. destruct (HP P) as (f & E & F & _). eauto.
  - intros P f E. destruct (HP P) as (f' & E' & _ & R). rewrite E in E'. injection E' as <-. exact R.
Qed.
Print Assumptions C59_pairwise.

(** ** An algorithm as supposed exists: trying all labelings *)
Section Brute.
Variables (T : Type) (OP : oper T) (ACC : accum T) (fin : T -> Prop).
Hypothesis AL : acc_laws fin OP ACC.
Definition value_of (gm : subgm T) (y : list nat) : T := match sub_evaluate T OP gm y with Ret (_, e) => e | _ => o_neutral OP end.
Definition brute (gm : subgm T) : outcome (list nat * T) :=
  let y := pick T (a_bop ACC) _ (value_of gm) (labelings (s_labels gm)) (repeat 0 (length (s_labels gm))) in Ret (y, value_of gm y).
Lemma value_of_ok gm y : usable fin OP gm -> in_shape (s_labels gm) y -> has_value OP gm y (value_of gm y) /\ fin (value_of gm y).
Proof. intros [_ U] S. destruct (U y S) as (e & (gm' & E) & F). unfold value_of, has_value. rewrite E. eauto. Qed.
Lemma brute_ok gm : usable fin OP gm -> exists y, brute gm = Ret (y, value_of gm y) /\ in_shape (s_labels gm) y /\ forall y', in_shape (s_labels gm) y' -> a_bop ACC (value_of gm y') (value_of gm y) = false.
Proof.
  intros U. pose proof (zeros_shape _ (proj1 U)) as Z.
  destruct (pick_ok T (a_bop ACC) fin (al_irrefl _ _ _ AL) (al_trans _ _ _ AL) (al_negtrans _ _ _ AL) _ (value_of gm) (labelings (s_labels gm)) (repeat 0 (length (s_labels gm)))) as [I1 I2].
  - apply value_of_ok; assumption.
  - intros y Hy. apply value_of_ok; [exact U|]. apply labelings_In. exact Hy.
  - eexists. split; [reflexivity|]. split; [destruct I1 as [<-|I1]; [exact Z|apply labelings_In; exact I1]|]. intros y' S. apply I2. right. apply labelings_In. exact S.
Qed.
Theorem C59_solver_exists : labels_all fin OP brute /\ exact fin OP ACC brute /\ bounding fin OP ACC brute /\ (forall gm a b, usable fin OP gm -> brute gm = Ret (a, b) -> has_value OP gm a b).
Proof.
  repeat apply conj.
  - intros gm U. destruct (brute_ok gm U) as (y & E & S & _). eauto.
  - intros gm a b U E y e e' S V V'. destruct (brute_ok gm U) as (y0 & E0 & S0 & B). rewrite E0 in E. injection E as <- <-.
    rewrite (value_same T OP _ _ _ _ V (proj1 (value_of_ok gm y0 U S0))), (value_same T OP _ _ _ _ V' (proj1 (value_of_ok gm y U S))). apply B. exact S.
  - intros gm a b U E. destruct (brute_ok gm U) as (y0 & E0 & S0 & B). rewrite E0 in E. injection E as <- <-. split; [apply value_of_ok; assumption|]. intros y e S V. rewrite (value_same T OP _ _ _ _ V (proj1 (value_of_ok gm y U S))). apply B. exact S.
  - intros gm a b U E. destruct (brute_ok gm U) as (y0 & E0 & S0 & B). rewrite E0 in E. injection E as <- <-. apply value_of_ok; assumption.
Qed.
End Brute.
Print Assumptions C59_solver_exists.

(** ** The choice of the method *)
Section Select.
Variables (T : Type) (g : gmv T) (isPotts : list nat * (list nat -> T) -> bool).
Definition binary : Prop := Forall (fun k => k = 2) (v_labels g).
(** Every factor of at least two variables is a Potts function of at most three. *)
Definition potts_model : Prop := Forall (fun fc => 1 < length (fst fc) -> length (fst fc) <= 3 /\ isPotts fc = true) (v_factors g).
Notation order d := (TentacleSpec.order_at_most d g).
Lemma binary_spec : ri_binary T g = true <-> binary.
Proof.
  unfold ri_binary, binary. assert (G : forall l b, fold_left (fun b k => if negb (k =? 2) then false else b) l b = true <-> b = true /\ Forall (fun k => k = 2) l).
  { induction l as [|k l IH]; intros b; cbn [fold_left]; [split; [auto|intros []; auto]|]. rewrite IH. destruct (Nat.eqb_spec k 2) as [->|N]; cbn [negb]; split.
    - intros [B F]. auto.
    - intros [B F]. inversion F; auto.
    - intros [B _]. discriminate.
    - intros [_ F]. inversion F; contradiction. }
  rewrite G. tauto.
Qed.
Lemma factors_spec : (fst (ri_factors T g isPotts) = true <-> potts_model) /\ (snd (ri_factors T g isPotts) <= 2 <-> order 2).
Proof.
  unfold ri_factors, potts_model, TentacleSpec.order_at_most. set (F := fun (p : bool * nat) (fc : list nat * (list nat -> T)) => _).
  assert (G : forall l p, (fst (fold_left F l p) = true <-> fst p = true /\ Forall (fun fc => 1 < length (fst fc) -> length (fst fc) <= 3 /\ isPotts fc = true) l) /\
     (snd (fold_left F l p) <= 2 <-> snd p <= 2 /\ Forall (fun fc => length (fst fc) <= 2) l)).
  { induction l as [|fc l IH]; intros [b k]; cbn [fold_left]; [split; (split; [intros H; split; [exact H|constructor]|intros []; assumption])|].
    destruct (IH (F (b, k) fc)) as [I1 I2]. rewrite I1, I2. clear IH I1 I2. unfold F at 1 2. cbn [fst snd]. split.
    - destruct b; cbn [andb]; [|split; [intros [X _]; discriminate|intros [X _]; discriminate]].
      destruct (Nat.ltb_spec 1 (length (fst fc))) as [A|A]; cbn [andb]; [destruct (Nat.ltb_spec 3 (length (fst fc))) as [B|B]; cbn [orb]; [|destruct (isPotts fc) eqn:P; cbn [negb]]|].
      + split; [intros [X _]; discriminate|]. intros [_ X]. inversion X as [|? ? Y]; subst. specialize (Y A). lia.
      + split; [intros [_ X]; split; [reflexivity|]; constructor; [auto|exact X]|]. intros [_ X]. inversion X; auto.
      + split; [intros [X _]; discriminate|]. intros [_ X]. inversion X as [|? ? Y]; subst. destruct (Y A) as [_ Y']. congruence.
      + split; [intros [_ X]; split; [reflexivity|]; constructor; [lia|exact X]|]. intros [_ X]. inversion X; auto.
    - destruct (Nat.ltb_spec k (length (fst fc))) as [A|A]; split; intros [X Y]; [split; [lia|constructor; assumption]|inversion Y; split; auto|split; [exact X|constructor; [lia|exact Y]]|inversion Y; split; auto]. }
  destruct (G (v_factors g) (true, 0)) as [G1 G2]. cbn [fst snd] in *. rewrite G1, G2. split; split; try tauto; intros H; split; auto; lia.
Qed.
(** C59: which method infer() uses to find labels of an optimal labeling. *)
Theorem C59_select :
  (binary -> order 2 -> ri_select T g isPotts = Ret ByQPBO) /\
  (binary -> ~ order 2 -> ri_select T g isPotts = Ret ByFixsHOQPBO) /\
  (~ binary -> potts_model -> ri_select T g isPotts = Ret ByKovtun) /\
  (~ binary -> ~ potts_model -> order 2 -> ri_select T g isPotts = Ret ByMQPBO) /\
  (~ binary -> ~ potts_model -> ~ order 2 -> ri_select T g isPotts = Throw).
Proof.
  unfold ri_select. destruct factors_spec as [F1 F2]. destruct (ri_factors T g isPotts) as [p k]. cbn [fst snd] in *. pose proof binary_spec as B.
  assert (B' : ri_binary T g = false -> ~ binary) by (intros E X; apply B in X; congruence). assert (F1' : p = false -> ~ potts_model) by (intros E X; apply F1 in X; congruence).
  destruct (ri_binary T g), p, (Nat.leb_spec k 2) as [K|K]; repeat split; intros; try reflexivity; exfalso; try tauto; apply F2 in H1 || apply F2 in H0 || idtac; try lia; tauto.
Qed.
End Select.
Print Assumptions C59_select.
(** C59: a model with a factor of more than two variables and a variable that does not have two labels is refused,
    also if all of its functions are Potts functions. *)
Theorem C59_multilabel : forall (T : Type) (g : gmv T) isPotts run, ~ binary T g -> ~ TentacleSpec.order_at_most 2 g -> ri_partial T g isPotts run = Throw.
Proof.
  intros T g isPotts run NB NO. unfold ri_partial, ri_select. destruct (factors_spec T g isPotts) as [F1 F2]. destruct (ri_factors T g isPotts) as [p k]. cbn [fst snd] in *.
  destruct (ri_binary T g) eqn:B; [exfalso; apply NB; apply (binary_spec T g isPotts); exact B|]. assert (MC : mqpbo_check T g = false).
  { destruct (mqpbo_check T g) eqn:M; [|reflexivity]. exfalso. apply NO. unfold mqpbo_check in M. rewrite forallb_forall in M. apply Forall_forall. intros fc H. apply Nat.leb_le. apply M. exact H. }
  destruct p; cbn [bind]; [rewrite MC; reflexivity|]. destruct (Nat.leb_spec k 2) as [K|K]; [apply F2 in K; contradiction|]. reflexivity.
Qed.
Print Assumptions C59_multilabel.

(** ** The method for binary models of higher order *)
Lemma fold_two (A : nat -> nat) (B : nat -> bool) n : foldM (fun (p : list nat * list bool) i => arg <- wr (fst p) i (A i) ;; opt <- wr (snd p) i (B i) ;; Ret (arg, opt)) (seq 0 n) (repeat 0 n, repeat false n) =
  Ret (map A (seq 0 n), map B (seq 0 n)).
Proof.
  assert (G : forall k, k <= n -> foldM (fun (p : list nat * list bool) i => arg <- wr (fst p) i (A i) ;; opt <- wr (snd p) i (B i) ;; Ret (arg, opt)) (seq 0 k) (repeat 0 n, repeat false n) =
    Ret (map (fun i => if i <? k then A i else 0) (seq 0 n), map (fun i => if i <? k then B i else false) (seq 0 n))).
  { induction k as [|k IH]; intros H.
    - cbn [seq foldM]. f_equal. assert (R : forall (X : Type) (f : nat -> X) (x : X) m s, (forall i, f i = x) -> repeat x m = map f (seq s m)) by (intros X f x m; induction m as [|m IHm]; intros s Hf; cbn; [reflexivity|]; rewrite Hf; f_equal; auto).
      f_equal; apply R; reflexivity.
    - rewrite seq_S, foldM_app, IH by lia. cbn [bind foldM Nat.add fst snd]. rewrite !wr_Ret by (rewrite map_length, seq_length; lia). cbn [bind]. f_equal. f_equal.
      + apply (nth_ext _ _ 0 0); [rewrite length_upd, !map_length; reflexivity|]. intros i Hi. rewrite length_upd, map_length, seq_length in Hi. destruct (Nat.eq_dec i k) as [->|N].
        * rewrite nth_upd_eq by (rewrite map_length, seq_length; lia). rewrite nth_map_seq by lia. replace (k <? S k) with true by (symmetry; apply Nat.ltb_lt; lia). reflexivity.
        * rewrite nth_upd_neq by auto. rewrite !nth_map_seq by lia. destruct (Nat.ltb_spec i k), (Nat.ltb_spec i (S k)); try reflexivity; lia.
      + assert (NM : forall (f : nat -> bool) i, i < n -> nth i (map f (seq 0 n)) false = f i) by (intros f i Hi; rewrite (nth_indep _ false (f 0)) by (rewrite map_length, seq_length; exact Hi); rewrite map_nth, seq_nth by exact Hi; reflexivity).
        apply (nth_ext _ _ false false); [rewrite length_upd, !map_length; reflexivity|]. intros i Hi. rewrite length_upd, map_length, seq_length in Hi. destruct (Nat.eq_dec i k) as [->|N].
        * rewrite nth_upd_eq by (rewrite map_length, seq_length; lia). rewrite NM by lia. replace (k <? S k) with true by (symmetry; apply Nat.ltb_lt; lia). reflexivity.
        * rewrite nth_upd_neq by auto. rewrite !NM by lia. destruct (Nat.ltb_spec i k), (Nat.ltb_spec i (S k)); try reflexivity; lia. }
  rewrite (G n (le_n n)). f_equal. f_equal; apply map_ext_in; intros i Hi; apply in_seq in Hi; replace (i <? n) with true by (symmetry; apply Nat.ltb_lt; lia); reflexivity.
Qed.
(** The values of the factors with variables where all labels are 0. *)
Definition at_zero (g : gmv Qc) : Qc := qsum (map (fun c => if length (fst c) =? 0 then Q2Qc 0 else snd c (repeat 0 (length (fst c)))) (v_factors g)).

(** C59: for a binary model whose factors have at most ten variables, the labels that the higher order method finds are
    those of a minimizer; the bound it stores becomes one if the values of the factors at label 0 are added. *)
Theorem C59_hoqpbo : forall (g : gmv Qc) (solve : qsolver) (lower : quad -> Qc), wf_gmv g -> binary Qc g -> TentacleSpec.order_at_most 10 g -> qpbo_solver solve ->
  exists f, ri_hoqpbo g solve lower = Ret f /\ finds g f /\ right AdderQ MinimizerQ g f /\
  ((forall q x, q_closed q -> (lower q <= q_value q x)%Qc) -> exists b, f_bound f = Some b /\ forall z, labeling g z -> (b + at_zero g <= total AdderQ g z)%Qc).
Proof.
  intros g solve lower W K O QP. set (n := length (v_labels g)). set (Z0 := fun _ : nat => 0). set (Z1 := fun _ : nat => 1).
  assert (K2 : same_labels 2 g) by exact K. pose proof (LA0 g K2) as LA. pose proof (LB0 g K2) as LB.
  destruct (model_setup g (fun _ => Ret 0) (fun _ => Ret 1) Z0 Z1 W O LA LB) as (h & EH & RH).
  pose proof (move_ok 10 n Z0 Z1 (v_factors g) (wf_cliques_ok g W O) solve QP h RH) as (h' & q & EQ & _ & C & N & P).
  destruct (represents_step 10 n h _ RH) as (h2 & q2 & EQ2 & _ & _ & _ & M). rewrite EQ in EQ2. injection EQ2 as <- <-.
  unfold ri_hoqpbo. fold n in EH |- *.
  assert (EC : forall l c, foldM (fun c fc => if length (fst fc) =? 0 then e <- factor_at g fc [] ;; Ret (c + e)%Qc else Ret c) l c = Ret (c + qsum (map (fun fc => if length (fst fc) =? 0 then snd fc [] else Q2Qc 0) l))%Qc).
  { induction l as [|fc l IH]; intros c; cbn [foldM map]; [cbn; f_equal; ring|]. destruct (length (fst fc) =? 0) eqn:E0.
    - unfold factor_at. replace (combine (fst fc) (@nil nat)) with (@nil (nat * nat)) by (destruct (fst fc); reflexivity). cbn [forallb bind]. rewrite IH. f_equal. unfold qsum. cbn [fold_right]. ring.
    - cbn [bind]. rewrite IH. f_equal. unfold qsum. cbn [fold_right]. ring. }
  rewrite EC. cbn [bind]. rewrite EH. cbn [bind]. rewrite EQ. cbn [bind].
  rewrite (foldM_ext _ (fun (p : list nat * list bool) i => arg <- wr (fst p) i (match solve q i with Some true => 1 | _ => 0 end) ;; opt <- wr (snd p) i (match solve q i with Some _ => true | None => false end) ;; Ret (arg, opt))) by (intros; destruct (solve q a) as [[|]|]; reflexivity).
  rewrite (fold_two (fun i => match solve q i with Some true => 1 | _ => 0 end) (fun i => match solve q i with Some _ => true | None => false end)). cbn [bind].
  eexists. split; [reflexivity|]. cbn [f_arg f_opt f_bound].
  assert (NM : forall (f : nat -> bool) i, i < n -> nth i (map f (seq 0 n)) false = f i) by (intros f i Hi; rewrite (nth_indep _ false (f 0)) by (rewrite map_length, seq_length; exact Hi); rewrite map_nth, seq_nth by exact Hi; reflexivity).
  split; [|split].
  - split; [cbn; rewrite map_length, seq_length; reflexivity|]. split; [cbn; rewrite map_length, seq_length; reflexivity|]. cbn [f_arg f_opt]. intros v Hv _. rewrite nth_map_seq by exact Hv. rewrite (two g K2) by exact Hv. destruct (solve q v) as [[|]|]; lia.
  - destruct (best_exists Qc AdderQ MinimizerQ allQ adderQ_laws minimizerQ_laws g W (all_fin g)) as (z0 & LZ & OZ). cbn [f_arg f_opt].
    exists (map (mix Z0 Z1 (patch (solve q) (fun v => nth v z0 0 =? 1))) (seq 0 n)). split.
    + apply (best_optimal Qc AdderQ MinimizerQ allQ adderQ_laws minimizerQ_laws g W (all_fin g) _ z0); [apply (model_labeling g _ _ Z0 Z1 LA LB)|split; assumption|].
      cbn. unfold Minimizer_bop. apply qlt_false. change (menergy g (map (mix Z0 Z1 (patch (solve q) (fun v => (nth v z0 0 =? 1)%nat))) (seq 0 n)%nat) <= menergy g z0)%Qc.
      replace (menergy g z0) with (menergy g (map (mix Z0 Z1 (fun v => nth v z0 0 =? 1)) (seq 0 n))) by (unfold n, Z0, Z1; rewrite <- (as_mix g K2 z0 LZ); reflexivity). unfold n. rewrite !(model_energy g Z0 Z1 W O). specialize (P (fun v => nth v z0 0 =? 1)). fold Z0 Z1. qlra.
    + intros v Hv E. cbn [f_arg f_opt] in E |- *. rewrite NM in E by exact Hv. rewrite !nth_map_seq by exact Hv. unfold mix, patch. destruct (solve q v) as [[|]|]; [reflexivity|reflexivity|discriminate].
  - intros LO. eexists. split; [reflexivity|]. intros z LZ. change (total AdderQ g z) with (menergy g z). rewrite (as_mix g K2 z LZ). fold Z0 Z1. rewrite (model_energy g Z0 Z1 W O).
    destruct M as [_ M]. destruct (M (fun v => nth v z 0 =? 1)) as (y & _ & EY). pose proof (LO q y C) as L1. rewrite EY in L1.
    assert (S : (qsum (map (fun fc => if length (fst fc) =? 0 then snd fc [] else Q2Qc 0) (v_factors g)) + at_zero g = qsum (map (fun c => snd c (map Z0 (fst c))) (v_factors g)))%Qc).
    { unfold at_zero. assert (ZE : forall l : list nat, map Z0 l = repeat 0 (length l)) by (intros l; induction l as [|a l IHl]; cbn; [reflexivity|f_equal; exact IHl]).
      generalize (v_factors g). intros l. induction l as [|c l IH]; [cbn; ring|]. unfold qsum in *. cbn [map fold_right]. rewrite <- IH. rewrite ZE. destruct (Nat.eqb_spec (length (fst c)) 0) as [E|E]; [rewrite E; cbn [repeat]|]; ring. }
    rewrite <- S. clear - L1. revert L1. generalize (qsum (map (fun fc : list nat * (list nat -> Qc) => if length (fst fc) =? 0 then snd fc [] else Q2Qc 0) (v_factors g))), (at_zero g), (lower q), (fenergy Z0 Z1 (v_factors g) (fun v => nth v z 0 =? 1)). intros a b c d H. replace (Q2Qc 0 + a + c + b)%Qc with (c + (a + b))%Qc by ring. apply Qcplus_le_compat; [exact H|apply Qcle_refl].
Qed.
Print Assumptions C59_hoqpbo.

(** ** Examples *)
Definition bp_none : gmv ext -> nat -> outcome (list ext * list (list nat)) := fun _ _ => Undef.
Definition bp_none' : gmv ext -> outcome (list nat) := fun _ => Undef.
Definition rd_run (par : riparam) (partial : outcome (found ext)) (stops : list (nat -> bool)) : outcome (ri ext) :=
  ri_run ext AdderE MinimizerE te_ex (tent_rooted AdderE MinimizerE bp_none) (tent_free AdderE MinimizerE bp_none') par partial (brute ext AdderE MinimizerE) stops.
Definition rd_best : list nat := [1; 0; 1; 0; 0; 1; 0; 1].
Definition rd_found : found ext := mkFound [0; 0; 1; 0; 0; 0; 0; 1] [false; false; true; false; false; false; false; true] None.
Lemma rd_best_optimal : optimal AdderE MinimizerE te_ex rd_best.
Proof.
  split; [repeat constructor|]. intros y LY. apply labelings_In in LY. assert (X : forallb (fun y => negb (a_bop MinimizerE (total AdderE te_ex y) (total AdderE te_ex rd_best))) (labelings (v_labels te_ex)) = true) by (vm_compute; reflexivity).
  rewrite forallb_forall in X. apply X in LY. apply negb_true_iff in LY. exact LY.
Qed.
(** Eight variables and nine factors: with two labels of an optimal labeling known, with and without tentacles and
    components, and with a visitor that stops. *)
Example C59_case : wf_gmv te_ex /\ fin_gmv finite te_ex /\ TentacleSpec.order_at_most 2 te_ex /\ length (v_labels te_ex) <= length (v_factors te_ex) /\
  finds te_ex rd_found /\ right AdderE MinimizerE te_ex rd_found /\
  labels_all finite AdderE (brute ext AdderE MinimizerE) /\ exact finite AdderE MinimizerE (brute ext AdderE MinimizerE) /\ bounding finite AdderE MinimizerE (brute ext AdderE MinimizerE) /\
  rd_run (mkRiparam true true true) (Ret rd_found) [fun _ => false] = Ret (mkRi rd_best (Fin 8)) /\
  rd_run (mkRiparam true true false) (Ret rd_found) [fun k => k =? 0; fun _ => false] = Ret (mkRi rd_best (Fin 8)) /\
  rd_run (mkRiparam false false true) Undef [fun _ => false] = Ret (mkRi rd_best (Fin 8)) /\
  rd_run (mkRiparam true false false) (Ret (mkFound rd_best (repeat true 8) None)) [fun _ => false] = Ret (mkRi rd_best (Fin 8)) /\
  rd_run (mkRiparam false true true) Undef [fun k => k =? 1] = Ret (mkRi [0; 0; 0; 0; 0; 0; 0; 0] NInf).
Proof.
  destruct (C59_solver_exists ext AdderE MinimizerE finite minimizerE_laws) as (B1 & B2 & B3 & _).
  split; [split; cbn; repeat constructor; cbn; lia|]. split; [unfold fin_gmv, te_ex; cbn [v_factors]; repeat (apply Forall_cons; [intros; eexists; reflexivity|]); apply Forall_nil|].
  split; [unfold TentacleSpec.order_at_most, te_ex; cbn [v_factors]; repeat (apply Forall_cons; [cbn; lia|]); apply Forall_nil|]. split; [cbn; lia|].
  split; [split; [reflexivity|]; split; [reflexivity|]; intros v Hv _; cbn in Hv; do 8 (destruct v as [|v]; [cbn; lia|]); lia|].
  split; [exists rd_best; split; [exact rd_best_optimal|]; intros v Hv E; cbn in Hv; do 8 (destruct v as [|v]; [first [reflexivity|discriminate E]|]); lia|].
  split; [exact B1|]. split; [exact B2|]. split; [exact B3|].
  split; [vm_compute; reflexivity|]. split; [vm_compute; reflexivity|]. split; [vm_compute; reflexivity|]. split; vm_compute; reflexivity.
Qed.

(** *** What does not hold *)
(** With tentacle elimination, a chain of three variables has undefined behaviour: there are fewer factors than variables. *)
Theorem C59_tentacle_refuted : exists g : gmv ext, wf_gmv g /\ fin_gmv finite g /\ TentacleSpec.order_at_most 2 g /\
  ri_run ext AdderE MinimizerE g (tent_rooted AdderE MinimizerE bp_none) (tent_free AdderE MinimizerE bp_none') (mkRiparam false true false) Undef (brute ext AdderE MinimizerE) [fun _ => false] = Undef.
Proof.
  exists te_chain. split; [split; cbn; repeat constructor; cbn; lia|]. split; [unfold fin_gmv, te_chain; cbn [v_factors]; repeat (apply Forall_cons; [intros; eexists; reflexivity|]); apply Forall_nil|].
  split; [unfold TentacleSpec.order_at_most, te_chain; cbn [v_factors]; repeat (apply Forall_cons; [cbn; lia|]); apply Forall_nil|]. vm_compute. reflexivity.
Qed.
Print Assumptions C59_tentacle_refuted.

Definition rq_rooted : gmv Qc -> nat -> outcome (list Qc * list (list nat)) := fun _ _ => Undef.
Definition rq_free : gmv Qc -> outcome (list nat) := fun _ => Undef.
Definition rq_run (ACC : accum Qc) (g : gmv Qc) (solve : qsolver) (lower : quad -> Qc) (stops : list (nat -> bool)) : outcome (ri Qc) :=
  ri_run Qc AdderQ ACC g rq_rooted rq_free (mkRiparam true false false)
    (ri_partial Qc g (fun _ => false) (fun m => match m with ByFixsHOQPBO => ri_hoqpbo g solve lower | _ => Undef end)) (brute Qc AdderQ ACC) stops.
(** The least value. *)
Definition least (q : quad) : Qc := q_value q (patch (try_all q) (fun _ => false)).
Lemma least_ok : forall q x, q_closed q -> (least q <= q_value q x)%Qc.
Proof.
  intros q x C. unfold least. replace (q_value q (patch (try_all q) (fun _ => false))) with (q_value q (patch (try_all q) x)); [apply (proj1 C55_solver_exists); exact C|].
  apply q_value_ext; [exact C|]. intros v Hv. unfold patch, try_all. rewrite (proj2 (Nat.ltb_lt v (q_nodes q)) Hv). reflexivity.
Qed.
Definition rq_and : gmv Qc := mkGmv [2; 2; 2] [([0; 1; 2], fun l => match l with [1; 1; 1] => Q2Qc 1 | _ => Q2Qc 0 end)].
Definition rq_const : gmv Qc := mkGmv [2; 2; 2] [([0; 1; 2], fun _ => Q2Qc (-1))].
(** The higher order method minimizes also if the accumulation is maximization: the labels it fixes are wrong. *)
Theorem C59_maximizer_refuted : exists g s, wf_gmv g /\ binary Qc g /\ TentacleSpec.order_at_most 10 g /\ qpbo_solver try_all /\
  rq_run MaximizerQ g try_all least [fun _ => false] = Ret s /\ exists z, labeling g z /\ a_bop MaximizerQ (total AdderQ g z) (total AdderQ g (ri_state s)) = true.
Proof.
  exists rq_and. destruct (rq_run MaximizerQ rq_and try_all least [fun _ => false]) as [s| | |] eqn:R; [|vm_compute in R; discriminate R..]. exists s.
  split; [split; cbn; repeat constructor; cbn; lia|]. split; [repeat constructor|]. split; [repeat constructor|]. split; [apply C55_solver_exists|]. split; [reflexivity|].
  exists [1; 1; 1]. split; [repeat constructor|]. vm_compute in R. injection R as <-. vm_compute. reflexivity.
Qed.
Print Assumptions C59_maximizer_refuted.
(** bound() after a visitor has stopped is not a bound: the higher order method leaves out the values at label 0. *)
Theorem C59_bound_stop_refuted : exists g solve lower stop s, wf_gmv g /\ binary Qc g /\ TentacleSpec.order_at_most 10 g /\ qpbo_solver solve /\ (forall q x, q_closed q -> (lower q <= q_value q x)%Qc) /\
  rq_run MinimizerQ g solve lower [stop] = Ret s /\ exists z, labeling g z /\ a_bop MinimizerQ (total AdderQ g z) (ri_bound s) = true.
Proof.
  exists rq_const, (fun _ _ => None), least, (fun _ => true). destruct (rq_run MinimizerQ rq_const (fun _ _ => None) least [fun _ => true]) as [s| | |] eqn:R; [|vm_compute in R; discriminate R..]. exists s.
  split; [split; cbn; repeat constructor; cbn; lia|]. split; [repeat constructor|]. split; [repeat constructor|]. split; [intros q _ x; apply Qcle_refl|]. split; [exact least_ok|]. split; [reflexivity|].
  exists [0; 0; 0]. split; [repeat constructor|]. vm_compute in R. injection R as <-. vm_compute. reflexivity.
Qed.
Print Assumptions C59_bound_stop_refuted.
(** The higher order method at work, on the model of C55: all labels are found. *)
Example C59_hoqpbo_case : wf_gmv ex_gm /\ binary Qc ex_gm /\ TentacleSpec.order_at_most 10 ex_gm /\ qpbo_solver try_all /\
  ri_select Qc ex_gm (fun _ => false) = Ret ByFixsHOQPBO /\ (s <- rq_run MinimizerQ ex_gm try_all least [fun _ => false] ;; Ret (ri_state s)) = Ret [1; 1; 0].
Proof.
  split; [split; cbn; repeat constructor; cbn; lia|]. split; [repeat constructor|]. split; [repeat constructor|]. split; [apply C55_solver_exists|]. split; vm_compute; reflexivity.
Qed.
