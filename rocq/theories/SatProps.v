(** SAT: value() tells whether some labeling makes all factors true. *)
From Verif Require Import Base Values GmView GmViewSpec GmViewProofs ShapeSpec SatModel SatSpec SatProofs.
From Coq Require Import Sorted Relations.

Lemma total_and : forall g x, total AndB g x = true <-> Forall (fun fc => snd fc (at_vars x (fst fc)) = true) (v_factors g).
Proof.
  intros g x. unfold total. cbn [o_op o_neutral AndB]. unfold OperationsModel.And_neutral, OperationsModel.And_op2.
  assert (H : forall l a, fold_left (fun acc fc => acc && snd fc (at_vars x (fst fc))) l a = true <-> a = true /\ Forall (fun fc : list nat * (list nat -> bool) => snd fc (at_vars x (fst fc)) = true) l).
  { induction l as [|fc l IH]; intros a; cbn [fold_left]; [split; [auto|tauto]|]. rewrite IH, andb_true_iff, Forall_cons_iff. tauto. }
  rewrite H. tauto.
Qed.

(** C64.  infer() succeeds, and then value() is true exactly if some labeling makes all factors true. *)
Theorem C64_decides : forall (g : gmv bool) scc c0, two_sat g -> finds_components scc ->
  exists comp b, sat_infer g scc c0 = Ret comp /\ sat_value g comp = Ret b /\ (b = true <-> exists x, satisfying g x).
Proof.
  intros g scc c0 TS FC. unfold sat_infer. rewrite (graph_ok g TS). cbn [bind].
  assert (B : Forall (fun e => fst e < length (v_labels g) * 2 /\ snd e < length (v_labels g) * 2) (edges g)). { apply Forall_forall. intros [a b] I. cbn [fst snd]. apply (edge_bound g TS) in I. lia. }
  destruct (FC _ _ B) as [L C]. change (v_numberOfVariables bool g) with (length (v_labels g)). destruct (value_ok g _ L) as (b & V & P).
  exists (scc (length (v_labels g) * 2) (edges g)), b. split; [reflexivity|]. split; [exact V|]. rewrite P. split.
  - intros H. apply (no_cycle_sat g TS). intros i Hi R. apply (H i Hi). apply C; [lia|lia|exact R].
  - intros (x & S) i Hi E. apply (sat_no_cycle g TS x i S Hi). apply C; [lia|lia|exact E].
Qed.
Print Assumptions C64_decides.

(** In terms of the graphical model: value() is the disjunction, over all labelings, of the model's value. *)
Theorem C64_optimum : forall (g : gmv bool) scc c0 comp b, two_sat g -> finds_components scc ->
  sat_infer g scc c0 = Ret comp -> sat_value g comp = Ret b ->
  (b = true <-> exists x, labeling g x /\ v_evaluate _ AndB g x = Ret true).
Proof.
  intros g scc c0 comp b TS FC R V. destruct (C64_decides g scc c0 TS FC) as (comp' & b' & R' & V' & P). rewrite R in R'. injection R' as <-. rewrite V in V'. injection V' as <-. rewrite P.
  split; intros (x & LX & H); exists x; (split; [exact LX|]).
  - rewrite (v_evaluate_total bool AndB g x (proj1 TS)) by (eapply ShapeProofs.in_shape_length; exact LX). f_equal. apply total_and. exact H.
  - rewrite (v_evaluate_total bool AndB g x (proj1 TS)) in H by (eapply ShapeProofs.in_shape_length; exact LX). injection H as H. apply total_and. exact H.
Qed.
Print Assumptions C64_optimum.

(** Components can be found. *)
Theorem C64_finder_exists : finds_components (fun n es => map (rep n es) (seq 0 n)).
Proof. intros n es B. apply scc_ok. exact B. Qed.
Print Assumptions C64_finder_exists.

(** A factor without exactly two variables makes infer() throw. *)
Theorem C64_order : forall (g : gmv bool) scc c0, wf_gmv g -> Forall (eq 2) (v_labels g) ->
  Exists (fun fc => length (fst fc) <> 2) (v_factors g) -> sat_infer g scc c0 = Throw.
Proof.
  intros g scc c0 [W PL] L E. unfold sat_infer, sat_graph. enough (H : forall l es, incl l (v_factors g) -> Exists (fun fc => length (fst fc) <> 2) l -> foldM (sat_factor g) l es = Throw) by (rewrite H; auto; intros x Hx; exact Hx).
  induction l as [|fc l IH]; intros es HI X; [inversion X|]. cbn [foldM]. destruct (Nat.eq_dec (length (fst fc)) 2) as [E2|N2].
  - set (g' := mkGmv (v_labels g) [fc]). assert (TS : two_sat g'). { split; [split; [constructor; [|constructor]|exact PL]|split; [exact L|constructor; auto]]. rewrite Forall_forall in W. apply W. apply HI. left. auto. }
    assert (S : sat_factor g es fc = Ret (es ++ fac_edges g' fc)). { change (sat_factor g es fc) with (sat_factor g' es fc). apply factor_ok; [exact TS|left; reflexivity]. }
    rewrite S. cbn [bind]. apply IH; [intros y Hy; apply HI; right; exact Hy|]. inversion X; subst; [contradiction|assumption].
  - unfold sat_factor at 1. rewrite (proj2 (Nat.eqb_neq _ _) N2). reflexivity.
Qed.
Print Assumptions C64_order.

(** x0 or x1, x0 implies x2, not both x1 and x2: satisfiable; with x0 implies x1 and x1 implies x2 as well: unsatisfiable. *)
Definition sat_g (last : bool) : gmv bool :=
  mkGmv [2; 2; 2] ([([0; 1], fun c => match c with [0; 0] => false | _ => true end);
                   ([0; 2], fun c => match c with [1; 0] => false | _ => true end);
                   ([1; 2], fun c => match c with [1; 1] => false | _ => true end)] ++
                  (if last then [([0; 1], fun c => match c with [1; 0] => false | _ => true end); ([1; 2], fun c => match c with [1; 0] => false | _ => true end)] else [])).
Example C64_example : two_sat (sat_g true) /\ two_sat (sat_g false) /\
  (let scc := fun n es => map (rep n es) (seq 0 n) in
   (c <- sat_infer (sat_g true) scc sat_new ;; sat_value (sat_g true) c) = Ret false /\
   (c <- sat_infer (sat_g false) scc sat_new ;; sat_value (sat_g false) c) = Ret true).
Proof.
  assert (W : forall b, two_sat (sat_g b)) by (intros []; (split; [split|split]; repeat constructor)).
  split; [apply W|]. split; [apply W|]. split; vm_compute; reflexivity.
Qed.

(** Refuted: value() may be called at any time.  Before infer() it reads a vector without entries. *)
Theorem C64_before_refuted : forall g : gmv bool, v_labels g <> [] -> sat_value g sat_new = Undef.
Proof.
  intros g H. unfold sat_value, sat_new. change (v_numberOfVariables bool g) with (length (v_labels g)). destruct (v_labels g) as [|k l]; [contradiction|]. reflexivity.
Qed.
Print Assumptions C64_before_refuted.

(** Refuted: value() is right for models with more than two labels; the others are ignored. *)
Theorem C64_labels_refuted : exists (g : gmv bool) x, wf_gmv g /\ Forall (fun fc => length (fst fc) = 2) (v_factors g) /\ satisfying g x /\
  forall scc c0, finds_components scc -> exists comp, sat_infer g scc c0 = Ret comp /\ sat_value g comp = Ret false.
Proof.
  set (f := fun c : list nat => match c with [2; 0] => true | _ => false end). exists (mkGmv [3; 2] [([0; 1], f)]), [2; 0].
  split; [split; repeat constructor|]. split; [repeat constructor|]. split; [split; repeat constructor|].
  intros scc c0 FC. set (es := [(0, 3); (1, 2); (0, 1); (3, 2); (2, 3); (1, 0); (2, 1); (3, 0)]). exists (scc 4 es). split; [reflexivity|].
  destruct (FC 4 es) as [L C]. { unfold es. repeat constructor. }
  assert (E : nth 0 (scc 4 es) 0 = nth 2 (scc 4 es) 0). { apply C; [lia|lia|]. split; [apply rt_trans with 1; apply rt_step|apply rt_trans with 1; apply rt_step]; unfold step, es; cbn; tauto. }
  assert (E' : nth 1 (scc 4 es) 0 = nth 3 (scc 4 es) 0). { apply C; [lia|lia|]. split; [apply rt_trans with 0; apply rt_step|apply rt_trans with 0; apply rt_step]; unfold step, es; cbn; tauto. }
  unfold sat_value. cbn [v_numberOfVariables v_labels length seq foldM plus]. change (v_numberOfVariables bool (mkGmv [3; 2] [([0; 1], f)])) with 2. cbn [plus].
  rewrite !(rd_nth _ _ _ 0) by lia. cbn [bind]. rewrite E, E'. rewrite !Nat.eqb_refl. reflexivity.
Qed.
Print Assumptions C64_labels_refuted.

(** Refuted: variables with a single label are fine.  A value beyond the end of the factor's function is read. *)
Theorem C64_single_label_refuted : exists g : gmv bool, wf_gmv g /\ Forall (fun fc => length (fst fc) = 2) (v_factors g) /\
  forall scc c0, sat_infer g scc c0 = Undef.
Proof.
  exists (mkGmv [1; 2] [([0; 1], fun _ => true)]). split; [split; repeat constructor|]. split; [repeat constructor|]. intros scc c0. vm_compute. reflexivity.
Qed.
Print Assumptions C64_single_label_refuted.
