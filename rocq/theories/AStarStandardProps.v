(** C49, continued: A* search with the heuristic for factors of any number of variables, which solves a model without cycles
    for every node it expands. *)
From Verif Require Import Base Values GmView ShapeSpec GmViewSpec GmViewProofs OperationsModel FactorGraphModel FactorGraphSpec MpModel MpSpec MpRoundsProps MpProps ModeModel ModeSpec ModeProps AStarModel AStarSpec AStarSearch AStarFast AStarProofs AStarStandard AStarProps.
From Coq Require Import Permutation Sorted.
Open Scope nat_scope.

(** C49: with the heuristic that solves models without cycles, by a solver that is exact on them: the tree factors have no
    cycle, and the first variable of every other factor comes late in the order.  The same as with the other heuristic, for
    factors of any number of variables, and the bound counts all factors. *)
Theorem C49_standard : forall (T : Type) (ok : T -> Prop) (OP : oper T) (ACC : accum T) zero g solve pick stop para s0,
  search_laws ok OP ACC -> good_pick ok ACC pick -> ok zero -> wf_gmv g -> ok_gmv ok g -> 0 < length (v_labels g) ->
  p_nodeOrder para = [] \/ Permutation (p_nodeOrder para) (seq 0 (length (v_labels g))) ->
  astar_new T ACC zero g para = Ret s0 -> p_heuristic (as_param s0) = STANDARDHEURISTIC ->
  tree_acyclic g (p_treeFactorIds (as_param s0)) -> first_late g (p_nodeOrder (as_param s0)) (p_treeFactorIds (as_param s0)) ->
  tree_solver ok OP ACC g solve -> 100 * size_of (v_labels g) <= 99 * p_maxHeapSize para ->
  exists F,
  (forall fuel, F <= fuel -> exists s t, astar_infer T OP ACC zero g solve pick stop fuel s0 = Ret (s, t) /\ search_result OP ACC g (total OP g) para stop [] s t) /\
  ((forall c, stop c = false) -> (forall x, labeling g x -> a_bop ACC (p_objectiveBound para) (total OP g x) = false) ->
   forall fuel k, F <= fuel -> exists xs, infers (astar_infer T OP ACC zero g solve pick stop fuel) k s0 = Ret xs /\
     best_first OP ACC g xs /\ length xs = Nat.min (k * p_numberOfOpt para) (size_of (v_labels g))).
Proof. intros. eapply standard_search; eauto. Qed.
Print Assumptions C49_standard.

(** C49: for factors of at most two variables the order does not matter, and the tree factors that are chosen by default are
    right if no two factors have the same two variables. *)
Theorem C49_standard_pairs : forall (T : Type) (ok : T -> Prop) (OP : oper T) (ACC : accum T) zero g solve pick stop para,
  search_laws ok OP ACC -> good_pick ok ACC pick -> ok zero -> wf_gmv g -> ok_gmv ok g -> 0 < length (v_labels g) ->
  Forall (fun fc => length (fst fc) <= 2) (v_factors g) -> simple_pairs g -> p_heuristic para = STANDARDHEURISTIC -> p_treeFactorIds para = [] ->
  p_nodeOrder para = [] \/ Permutation (p_nodeOrder para) (seq 0 (length (v_labels g))) ->
  tree_solver ok OP ACC g solve -> 100 * size_of (v_labels g) <= 99 * p_maxHeapSize para ->
  exists s0 F, astar_new T ACC zero g para = Ret s0 /\
  forall fuel, F <= fuel -> exists s t, astar_infer T OP ACC zero g solve pick stop fuel s0 = Ret (s, t) /\ search_result OP ACC g (total OP g) para stop [] s t.
Proof.
  intros T ok OP ACC zero g solve pick stop para SL PK ZK WF OK N0 PW SP HH HT HO SV HS.
  destruct (new_ok T ACC zero g para WF N0 HO (or_introl (conj HT SP))) as (P & tr & opt & E & _ & _ & _ & P4 & _ & OR & _); [congruence|].
  destruct (new_inv T ACC zero g para _ E) as (P' & tr' & opt' & Ei & _ & _ & _ & _ & _ & _ & _ & _ & DT). injection Ei as <- _ _.
  rewrite HH in P4. specialize (DT HT).
  destruct (C49_standard T ok OP ACC zero g solve pick stop para _ SL PK ZK WF OK N0 HO E P4) as (F & H & _); auto.
  - cbn. eapply star_acyclic; eauto. intros a b G _ X. apply Permutation_length in OR. rewrite X, seq_length in OR. cbn in OR. lia.
  - cbn. intros i v vis G k Ei _ _. rewrite Forall_forall in PW. apply nth_error_In, PW in Ei. cbn in Ei.
    destruct vis as [|u [|]]; cbn in *; [lia| |lia]. destruct (negb _); cbn; lia.
  - eauto.
Qed.
Print Assumptions C49_standard_pairs.

(** ** The solver that is used: belief propagation for as many rounds as there are variables, lines 474-497 *)
Section Solver.
Variable T : Type.
Variable fin : T -> Prop.
Variable OP : oper T.
Variable ACC : accum T.
Variable mult : bool.
Variable small : T -> bool.
Variable wmean : T -> T -> T -> T.
Variable nonzero : T -> bool.
Variable dist : list T -> list T -> T.
Variable gtv : T -> T -> bool.
Variables zero vone v0 vzero : T.
Variable maxLabel : nat.
Definition bp_solver (m : gmv T) (v i : nat) : outcome (list nat) :=
  s <- mp_run T OP ACC mult small wmean nonzero dist gtv zero m (length (v_labels m)) zero zero false [] TFalse TTrue [MpInfer never] ;;
  mp_constrainedOptimum T OP ACC mult small vone v0 vzero maxLabel m s [v] [i].
(** C49: belief propagation is such a solver, if all labels are smaller than the largest label it knows. *)
Theorem C49_bp_solver : forall close g, semiring_laws fin OP ACC -> acc_laws fin OP ACC -> acc_select fin ACC -> close_laws fin ACC close -> fin vone ->
  small_labels g maxLabel -> nonzero zero = false -> division_laws fin OP mult small -> gtv zero zero = false -> (forall l1 l2, gtv zero (dist l1 l2) = false) ->
  tree_solver fin OP ACC g bp_solver.
Proof.
  intros close g SL AL SE CL F1 SM ZN DL B1 B2 m v i WF OK AC IN Hv Hi. unfold bp_solver.
  assert (SM' : small_labels m maxLabel) by (unfold small_labels in *; rewrite Forall_forall in *; auto).
  destruct (C47_arg_rounds T fin OP ACC mult small wmean nonzero dist gtv zero close vone v0 vzero maxLabel m (length (v_labels m)) zero zero false [] TTrue [] SL AL SE CL F1 SM' ZN ZN WF OK AC (fun _ => DL)) as (s & E & _ & _ & _ & GL & _).
  { split; auto. }
  cbn [app] in E. rewrite E. cbn [bind]. apply (GL v i (nth v (v_labels m) 0)); auto. apply nth_error_nth'; auto.
Qed.
End Solver.
Print Assumptions C49_bp_solver.

(** ** What meets the hypotheses *)
Example try_all_tree : forall g, tree_solver not_low AdderE MinimizerE g try_all.
Proof. intros g m v i WF OK _ _ Hv Hi. apply try_all_exact; auto. Qed.
Example fin_search_laws : search_laws is_fin AdderE MinimizerE.
Proof.
  pose proof min_search_laws as X. assert (L : forall v, is_fin v -> not_low v) by (intros [z| | |]; cbn; tauto).
  destruct X. constructor; intros; eauto 6; try (cbn; tauto).
  all: repeat match goal with v : ext |- _ => destruct v; cbn in *; try contradiction end; cbn; auto.
Qed.
Example first_best_fin : good_pick is_fin MinimizerE (fun _ => first_best).
Proof. intros t l N H. apply (first_best_good t l N). eapply Forall_impl; [|exact H]. intros [? [z| | |]]; cbn; tauto. Qed.
Definition bp_ext := bp_solver ext AdderE MinimizerE false (fun _ => false) (fun _ a _ => a) (fun _ => false) (fun _ _ => Fin 0) gtv_ext (Fin 0) (Fin 1) (Fin 0) (Fin 0) 1000.
Example bp_ext_solver : forall g, small_labels g 1000 -> tree_solver is_fin AdderE MinimizerE g bp_ext.
Proof. intros g S. eapply C49_bp_solver; auto using min_sum_laws, min_acc, min_select, min_sum_division; [exact closeE_laws|exact I]. Qed.
(** Three variables, a factor of all three, and pairs around them: the first variable comes last. *)
Definition corner : gmv ext := mkGmv [2; 3; 2]
  [([0; 1; 2], fun c => match c with [0; b; _] => Fin (10 - Z.of_nat b) | [_; b; c] => Fin (Z.of_nat (b * c)) | _ => Fin 0 end); ([0; 1], fun c => if nth 0 c 0 =? nth 1 c 0 then Fin 3 else Fin 0);
   ([1; 2], fun c => Fin (2 - Z.of_nat (nth 0 c 0))); ([], fun _ => Fin 7); ([0], fun c => Fin (Z.of_nat (5 * nth 0 c 0)))].
Definition corner_para (n k : nat) : aparam ext := mkAParam n k PInf DEFAULTHEURISTIC [1; 2; 0] [].
Definition corner_infer (fuel : nat) := astar_infer ext AdderE MinimizerE (Fin 0) corner bp_ext (fun _ => first_best) (fun _ => false) fuel.
Example corner_wf : wf_gmv corner.
Proof. split; repeat constructor; cbn; lia. Qed.
Example corner_fin : ok_gmv is_fin corner.
Proof.
  repeat constructor; intros x _; cbn; repeat match goal with |- context [if ?b then _ else _] => destruct b end; try exact I.
Qed.
Example corner_search : exists s0 F, astar_new ext MinimizerE (Fin 0) corner (corner_para 100 3) = Ret s0 /\
  forall fuel, F <= fuel -> exists s t, corner_infer fuel s0 = Ret (s, t) /\
  search_result AdderE MinimizerE corner (total AdderE corner) (corner_para 100 3) (fun _ => false) [] s t.
Proof.
  destruct (astar_new ext MinimizerE (Fin 0) corner (corner_para 100 3)) as [s0| | |] eqn:E; [|vm_compute in E; discriminate..].
  assert (Q : as_param s0 = mkAParam 100 3 PInf STANDARDHEURISTIC [1; 2; 0] [1]) by (vm_compute in E; injection E as <-; reflexivity).
  destruct (C49_standard ext is_fin AdderE MinimizerE (Fin 0) corner bp_ext (fun _ => first_best) (fun _ => false) (corner_para 100 3) s0) as (F & H & _); auto using fin_search_laws, first_best_fin, corner_wf, corner_fin.
  - exact I.
  - cbn; lia.
  - right. cbn. apply NoDup_Permutation; [repeat constructor; cbn; lia|repeat constructor; cbn; lia|]. intros x. cbn. lia.
  - rewrite Q. reflexivity.
  - rewrite Q. cbn [p_treeFactorIds]. apply star_acyclic with (order := [1; 2; 0]); [apply corner_wf| |reflexivity|discriminate].
    intros i j vis G K Ei Ej L2. do 5 (destruct i as [|i]; [cbn in Ei; injection Ei as <- _; try discriminate L2; do 5 (destruct j as [|j]; [cbn in Ej; try reflexivity; discriminate Ej|]); destruct j; discriminate Ej|]).
    destruct i; discriminate Ei.
  - rewrite Q. cbn [p_treeFactorIds p_nodeOrder]. intros i v vis G k Ei Ni Hk.
    do 5 (destruct i as [|i]; [cbn in Ei; try discriminate Ei; injection Ei as <- <- _; do 4 (destruct k as [|k]; [cbn in *; try lia; intuition discriminate|]); cbn; lia|]). destruct i; discriminate Ei.
  - apply bp_ext_solver. repeat constructor; cbn; lia.
  - vm_compute. lia.
  - eauto.
Qed.
(** What is found there. *)
Example corner_result : exists s, (s <- astar_new ext MinimizerE (Fin 0) corner (corner_para 100 3) ;; corner_infer 100 s) = Ret (s, NORMAL) /\
  as_optConf s = [[1; 2; 0]; [1; 2; 1]; [1; 0; 0]] /\ astar_bound ext s = Fin 14.
Proof.
  destruct (s <- astar_new ext MinimizerE (Fin 0) corner (corner_para 100 3) ;; corner_infer 100 s) as [[s t]| | |] eqn:E; [|vm_compute in E; discriminate..].
  exists s. vm_compute in E. injection E as <- <-. vm_compute. auto.
Qed.
