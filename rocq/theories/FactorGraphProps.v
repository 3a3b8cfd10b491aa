(** C26: the queries of a factor graph report the facts of the bipartite graph. *)
From Coq Require Import Sorted Permutation Relations.
From Verif Require Import Base GmView GmViewSpec IcmProofs PartitionModel FactorGraphModel FactorGraphSpec FactorGraphProofs FactorGraphAcyclic
  FactorGraphChain FactorGraphConnected.

(** Every well-formed model gives a well-formed factor graph. *)
Definition fg_of {T : Type} (g : gmv T) : fgraph :=
  mkFgraph (map fst (v_factors g)) (map (v_adj T g) (seq 0 (length (v_labels g)))).
Theorem C26_models : forall T (g : gmv T), wf_gmv g -> wf_fgraph (fg_of g).
Proof.
  intros T g [H _]. unfold fg_of. split; cbn [g_fac g_adj].
  - intros f vs E. rewrite nth_error_map in E. destruct (nth_error (v_factors g) f) as [fc|] eqn:Ef; [|discriminate]. injection E as <-.
    rewrite Forall_forall in H. destruct (H fc (nth_error_In _ _ Ef)) as [H1 H2]. split; auto. rewrite map_length, seq_length. apply Forall_forall. auto.
  - intros v fs E. rewrite nth_error_map in E. destruct (nth_error (seq 0 (length (v_labels g))) v) as [w|] eqn:Ew; [|discriminate]. injection E as <-.
    assert (w = v). { assert (v < length (v_labels g)) by (rewrite <- (seq_length (length (v_labels g)) 0); apply nth_error_Some; congruence).
      apply (nth_error_nth _ _ 0) in Ew. rewrite seq_nth in Ew by auto. auto. } subst w.
    split; [apply (filter_seq_sorted T g)|]. intros f. rewrite v_adj_spec. unfold incident. cbn [g_fac]. split.
    + intros [fc [E1 E2]]. exists (fst fc). rewrite nth_error_map, E1. auto.
    + intros [vs [E1 E2]]. rewrite nth_error_map in E1. destruct (nth_error (v_factors g) f) as [fc|]; [|discriminate]. injection E1 as <-. eauto.
Qed.
Print Assumptions C26_models.

(** Sizes and entries. *)
Theorem C26_entries : forall g, wf_fgraph g ->
  numberOfVariables g = length (g_adj g) /\ numberOfFactors g = length (g_fac g) /\
  (forall f vs, nth_error (g_fac g) f = Some vs -> orderOf g f = Ret (length vs) /\ forall j v, nth_error vs j = Some v -> variableOfFactor g f j = Ret v) /\
  (forall v fs, nth_error (g_adj g) v = Some fs -> degreeOf g v = Ret (length fs) /\ forall j f, nth_error fs j = Some f -> factorOfVariable g v j = Ret f).
Proof.
  intros g _. split; auto. split; auto. split.
  - intros f vs E. unfold orderOf, variableOfFactor. rewrite (rd_Ret _ _ _ _ E). cbn [bind]. split; auto. intros j v Ej. apply rd_Ret. auto.
  - intros v fs E. unfold degreeOf, factorOfVariable. rewrite (rd_Ret _ _ _ _ E). cbn [bind]. split; auto. intros j f Ej. apply rd_Ret. auto.
Qed.
Print Assumptions C26_entries.

(** The connection queries. *)
Theorem C26_variable_factor : forall g v f, wf_fgraph g -> v < length (g_adj g) -> f < length (g_fac g) ->
  exists b, variableFactorConnection g v f = Ret b /\ factorVariableConnection g f v = Ret b /\ (b = true <-> incident g f v).
Proof.
  intros g v f WF Hv Hf. unfold factorVariableConnection, variableFactorConnection. rewrite variablesOfFactor_Ret by auto. cbn [bind].
  destruct (binary_search (vars g f) v (vars_sorted g WF f)) as [b [E P]]. exists b. split; auto. split; auto. rewrite P, incident_iff. tauto.
Qed.
Print Assumptions C26_variable_factor.

Theorem C26_variable_variable : forall g u v, wf_fgraph g -> u < length (g_adj g) -> v < length (g_adj g) ->
  exists b, variableVariableConnection g u v = Ret b /\ (b = true <-> u <> v /\ exists f, incident g f u /\ incident g f v).
Proof.
  intros g u v WF Hu Hv. unfold variableVariableConnection. destruct (Nat.eqb_spec u v) as [->|N]; cbn [negb].
  { exists false. split; auto. split; [discriminate|tauto]. }
  rewrite !factorsOfVariable_Ret by auto. cbn [bind].
  destruct (common_spec (S (length (facs g u) + length (facs g v))) (facs g u) (facs g v)) as [b [E P]]; try apply facs_sorted; auto.
  exists b. split; auto. rewrite P. split.
  - intros [f [F1 F2]]. split; auto. exists f. split; apply (facs_iff g WF); auto.
  - intros [_ [f [F1 F2]]]. exists f. split; apply (facs_iff g WF); auto.
Qed.
Print Assumptions C26_variable_variable.

Theorem C26_factor_factor : forall g e f, wf_fgraph g -> e < length (g_fac g) -> f < length (g_fac g) ->
  exists b, factorFactorConnection g e f = Ret b /\ (b = true <-> e <> f /\ exists v, incident g e v /\ incident g f v).
Proof.
  intros g e f WF He Hf. unfold factorFactorConnection. destruct (Nat.eqb_spec e f) as [->|N]; cbn [negb].
  { exists false. split; auto. split; [discriminate|tauto]. }
  rewrite !variablesOfFactor_Ret by auto. cbn [bind].
  destruct (common_spec (S (length (vars g e) + length (vars g f))) (vars g e) (vars g f)) as [b [E P]]; try apply vars_sorted; auto.
  exists b. split; auto. rewrite P. split.
  - intros [v [F1 F2]]. split; auto. exists v. rewrite !incident_iff. auto.
  - intros [_ [v [F1 F2]]]. exists v. rewrite incident_iff in F1, F2. tauto.
Qed.
Print Assumptions C26_factor_factor.

(** isAcyclic: no cycle in the bipartite graph. *)
Theorem C26_isAcyclic : forall g, wf_fgraph g ->
  exists b, isAcyclic g = Ret b /\ (b = true <-> forall c, ~ cycle (edge g) c).
Proof. apply isAcyclic_spec. Qed.
Print Assumptions C26_isAcyclic.

(** isConnected: at least one variable and any two of them joined; the representatives are one variable of
    each connected component. *)
Theorem C26_isConnected : forall g, wf_fgraph g -> Forall (fun vs => vs <> []) (g_fac g) ->
  exists b reps, isConnected g = Ret (b, reps) /\
  (b = true <-> 0 < length (g_adj g) /\ forall u v, u < length (g_adj g) -> v < length (g_adj g) -> joined g u v) /\
  StronglySorted lt reps /\ (forall r, In r reps -> r < length (g_adj g)) /\
  (forall v, v < length (g_adj g) -> exists! r, In r reps /\ joined g v r).
Proof. apply isConnected_spec. Qed.
Print Assumptions C26_isConnected.

(** Factor graphs of models with [n] binary variables. *)
Definition fg_demo (n : nat) (fac : list (list nat)) : fgraph := fg_of (mkGmv (repeat 2 n) (map (fun vs => (vs, fun _ : list nat => tt)) fac)).
Ltac fg_wf := apply C26_models; split; [|unfold ShapeSpec.positive; repeat constructor]; repeat (constructor; [split; repeat constructor|]); constructor.

(** A factor without variables makes isConnected read outside of it. *)
Theorem C26_isConnected_refuted : exists g, wf_fgraph g /\ isConnected g = Undef.
Proof. exists (fg_demo 2 [[0; 1]; []]). split; [fg_wf|vm_compute; reflexivity]. Qed.
Print Assumptions C26_isConnected_refuted.

(** isChain: true with the order of the variables along the chain, false if there is none. *)
Theorem C26_isChain : forall g, wf_fgraph g ->
  exists o, isChain g = Ret o /\ match o with Some c => is_chain g c | None => forall c, ~ is_chain g c end.
Proof. apply isChain_spec. Qed.
Print Assumptions C26_isChain.

(** Orders of factors. *)
Theorem C26_orders : forall g, wf_fgraph g ->
  (exists m, maxFactorOrder g = Ret m /\ Forall (fun vs => length vs <= m) (g_fac g) /\ (m = 0 \/ exists vs, In vs (g_fac g) /\ length vs = m)) /\
  (forall k, exists b, maxFactorOrderLe g k = Ret b /\ (b = true <-> Forall (fun vs => length vs <= k) (g_fac g))) /\
  (forall v n, v < length (g_adj g) -> exists fs, numberOfNthOrderFactorsOfVariable g v n = Ret (length fs) /\ nthOrderFactorsOfVariable g v n = Ret fs /\
     NoDup fs /\ forall f, In f fs <-> exists vs, nth_error (g_fac g) f = Some vs /\ In v vs /\ length vs = n).
Proof.
  intros g WF. split; [apply maxFactorOrder_spec|]. split; [apply maxFactorOrderLe_spec|]. intros v n Hv. exists (rev (nth_facs g v n)).
  assert (V : forall f vs, nth_error (g_fac g) f = Some vs -> vars g f = vs) by (intros f vs E; apply nth_error_nth; auto).
  rewrite rev_length. split; [apply nthOrder_count; auto|]. split; [apply nthOrder_ids; auto|]. split.
  - apply NoDup_rev. apply NoDup_filter, sorted_NoDup, facs_sorted, WF.
  - intros f. rewrite <- in_rev. unfold nth_facs. rewrite filter_In, (facs_iff g WF) by auto. rewrite Nat.eqb_eq. unfold incident. split.
    + intros [[vs [E1 E2]] E3]. exists vs. rewrite (V f vs E1) in E3. auto.
    + intros [vs [E1 [E2 E3]]]. split; eauto. rewrite (V f vs E1). auto.
Qed.
Print Assumptions C26_orders.

(** The adjacency matrix and list of the variables. *)
Theorem C26_adjacency : forall g, wf_fgraph g -> let n := length (g_adj g) in
  exists m out, variableAdjacencyMatrix g = Ret m /\ variableAdjacencyList g = Ret out /\
    length m = n /\ Forall (fun row => length row = n) m /\
    length out = n /\ Forall (StronglySorted lt) out /\
    (forall u v row, nth_error m u = Some row -> (nth_error row v = Some true <-> u <> v /\ exists f, incident g f u /\ incident g f v)) /\
    (forall u v s, nth_error out u = Some s -> (In v s <-> u <> v /\ exists f, incident g f u /\ incident g f v)).
Proof.
  intros g WF n. destruct (matrix_spec g WF) as [m [E1 [[S1 S2] R1]]]. destruct (list_spec g WF) as [out [E2 [[S3 S4] R2]]].
  exists m, out. do 2 (split; [auto|]). do 4 (split; [auto|]). split.
  - intros u v row Hr. fold (share g u v). rewrite <- R1. unfold entry. split; [eauto|]. intros [r [X1 X2]]. rewrite Hr in X1. injection X1 as <-. auto.
  - intros u v s Hs. fold (share g u v). rewrite <- R2. unfold member. split; [eauto|]. intros [r [X1 X2]]. rewrite Hs in X1. injection X1 as <-. auto.
Qed.
Print Assumptions C26_adjacency.

(** factorAdjacencyList should list the factors that share a variable with each factor; it uses positions
    within the factor as variable indices instead. *)
Theorem C26_factorAdjacencyList_refuted : exists g out, wf_fgraph g /\ factorAdjacencyList g = Ret out /\
  exists e f s, nth_error out e = Some s /\ ~ In f s /\ e <> f /\ exists v, incident g e v /\ incident g f v.
Proof.
  exists (fg_demo 2 [[1]; [1]]), [[]; []]. split; [fg_wf|]. split; [vm_compute; reflexivity|]. exists 0, 1, []. split; [auto|]. split; [intros []|]. split; [lia|].
  exists 1. split; exists [1]; split; vm_compute; auto.
Qed.
Print Assumptions C26_factorAdjacencyList_refuted.

(** isGrid.  The variables are arranged in the matrix [m] (rows): each one occurs once, and there is one
    second-order factor for each pair of horizontal or vertical neighbours. *)
Fixpoint transpose_ (c : nat) (m : list (list nat)) : list (list nat) :=
  match c with 0 => [] | S c => map (hd 0) m :: transpose_ c (map (@tl nat) m) end.
Definition is_grid (g : fgraph) (rows cols : nat) (m : list (list nat)) : Prop :=
  length m = rows /\ Forall (fun r => length r = cols) m /\ NoDup (concat m) /\ (forall v, In v (concat m) <-> v < length (g_adj g)) /\
  Forall (fun vs => length vs <= 2) (g_fac g) /\
  Permutation (filter (fun vs => length vs =? 2) (g_fac g)) (flat_map links m ++ flat_map links (transpose_ cols m)).

(** For a 2x2 grid whose variables are numbered around the square, isGrid answers true with a 3x2 matrix. *)
Theorem C26_isGrid_refuted : exists g, wf_fgraph g /\ is_grid g 2 2 [[0; 1]; [3; 2]] /\
  exists r c m, isGrid g = Ret (Some (r, c, m)) /\ ~ is_grid g r c m.
Proof.
  exists (fg_demo 4 [[0; 1]; [0; 3]; [1; 2]; [2; 3]]). split; [fg_wf|]. split.
  - split; [auto|]. split; [repeat constructor|]. split; [repeat (constructor; [cbn; lia|]); constructor|]. split; [intros v; cbn; lia|].
    split; [repeat constructor|]. cbn. apply perm_skip. apply (Permutation_trans (l' := [[1; 2]; [2; 3]; [0; 3]])).
    + apply (Permutation_cons_append [[1;2];[2;3]] [0;3]).
    + apply (Permutation_trans (l' := [[2; 3]; [1; 2]; [0; 3]])); [apply perm_swap|apply perm_skip, perm_swap].
  - eexists 3, 2, _. split; [vm_compute; reflexivity|]. intros [_ [_ [ND [B _]]]].
    pose proof (NoDup_bounded_length _ 4 ND (fun v Hv => proj1 (B v) Hv)) as L. cbn in L. lia.
Qed.
Print Assumptions C26_isGrid_refuted.

(** ** Non-vacuity *)
Example fg_example : fgraph := fg_demo 5 [[0; 3]; [3]; [1; 3]; [1; 4]; [2; 4]; []].
Example fg_example_wf : wf_fgraph fg_example.
Proof. fg_wf. Qed.
Example fg_example_queries :
  isAcyclic fg_example = Ret true /\ isChain fg_example = Ret (Some [0; 3; 1; 4; 2]) /\
  isAcyclic (fg_demo 3 [[0; 1]; [0; 1; 2]]) = Ret false /\ isChain (fg_demo 3 [[0; 1]; [0; 1]]) = Ret None /\
  isConnected (fg_demo 4 [[0; 2]; [1; 3]]) = Ret (false, [0; 1]) /\ isConnected (fg_demo 4 [[0; 2]; [1; 3]; [0; 1; 2]]) = Ret (true, [0]) /\
  maxFactorOrder fg_example = Ret 2 /\ variableVariableConnection fg_example 0 1 = Ret false /\ factorFactorConnection fg_example 0 2 = Ret true /\
  variableAdjacencyList fg_example = Ret [[3]; [3; 4]; [4]; [0; 1]; [1; 2]].
Proof. repeat split; vm_compute; reflexivity. Qed.
