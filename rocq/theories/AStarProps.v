(** C49: A* search enumerates labelings from the best one on. *)
From Verif Require Import Base Values GmView ShapeSpec GmViewSpec GmViewProofs OperationsModel ModeSpec AStarModel AStarSpec AStarSearch AStarFast AStarProofs.
From Coq Require Import Permutation Sorted.
Open Scope nat_scope.

(** C49: on models whose factors have at most two variables, with the heuristic for them, any order of the variables and any
    factors without cycles as tree factors, a heap that never fills up, and any visitor: infer returns; it finds different
    labelings, each of them not beaten by any labeling that is not found earlier; bound() is not worse than the value of any
    labeling that is not found, factors without variables not counted; if no visitor stops the search, it finds as many as
    asked for, or all there are, or stops at one that is worse than the objective bound; value() and arg() give what was found. *)
Theorem C49_search : forall (T : Type) (ok : T -> Prop) (OP : oper T) (ACC : accum T) zero g solve pick stop para,
  search_laws ok OP ACC -> good_pick ok ACC pick -> ok zero -> wf_gmv g -> ok_gmv ok g -> 0 < length (v_labels g) ->
  Forall (fun fc => length (fst fc) <= 2) (v_factors g) -> p_heuristic para <> STANDARDHEURISTIC ->
  p_nodeOrder para = [] \/ Permutation (p_nodeOrder para) (seq 0 (length (v_labels g))) ->
  (p_treeFactorIds para = [] /\ simple_pairs g) \/
  (p_treeFactorIds para <> [] /\ Forall (fun i => i < length (v_factors g)) (p_treeFactorIds para) /\ forest g (p_treeFactorIds para)) ->
  100 * size_of (v_labels g) <= 99 * p_maxHeapSize para ->
  exists s0 F, astar_new T ACC zero g para = Ret s0 /\
  forall fuel, F <= fuel -> exists s t, astar_infer T OP ACC zero g solve pick stop fuel s0 = Ret (s, t) /\
    search_result OP ACC g (total OP (without_constants g)) para stop [] s t.
Proof.
  intros T ok OP ACC zero g solve pick stop para SL PK ZK WF OK N0 PW HH HO HT HS.
  destruct (fast_search T ok OP ACC zero g solve pick stop SL PK ZK WF OK N0 PW para HH HO HT HS) as (s0 & F & E & H & _). eauto.
Qed.
Print Assumptions C49_search.

(** C49: calling infer again goes on where the last call ended: all calls together find different labelings from the best one
    on, until there are no more. *)
Theorem C49_again : forall (T : Type) (ok : T -> Prop) (OP : oper T) (ACC : accum T) zero g solve pick stop para,
  search_laws ok OP ACC -> good_pick ok ACC pick -> ok zero -> wf_gmv g -> ok_gmv ok g -> 0 < length (v_labels g) ->
  Forall (fun fc => length (fst fc) <= 2) (v_factors g) -> p_heuristic para <> STANDARDHEURISTIC ->
  p_nodeOrder para = [] \/ Permutation (p_nodeOrder para) (seq 0 (length (v_labels g))) ->
  (p_treeFactorIds para = [] /\ simple_pairs g) \/
  (p_treeFactorIds para <> [] /\ Forall (fun i => i < length (v_factors g)) (p_treeFactorIds para) /\ forest g (p_treeFactorIds para)) ->
  100 * size_of (v_labels g) <= 99 * p_maxHeapSize para ->
  (forall c, stop c = false) -> (forall x, labeling g x -> a_bop ACC (p_objectiveBound para) (total OP (without_constants g) x) = false) ->
  exists s0 F, astar_new T ACC zero g para = Ret s0 /\
  forall fuel k, F <= fuel -> exists xs, infers (astar_infer T OP ACC zero g solve pick stop fuel) k s0 = Ret xs /\
    best_first OP ACC g xs /\ length xs = Nat.min (k * p_numberOfOpt para) (size_of (v_labels g)).
Proof.
  intros T ok OP ACC zero g solve pick stop para SL PK ZK WF OK N0 PW HH HO HT HS NS NB.
  destruct (fast_search T ok OP ACC zero g solve pick stop SL PK ZK WF OK N0 PW para HH HO HT HS) as (s0 & F & E & _ & H). eauto 10.
Qed.
Print Assumptions C49_again.

(** ** The laws hold: minima of sums, with plus infinity *)
Definition not_low (v : ext) : Prop := match v with Fin _ | PInf => True | _ => False end.
Example min_search_laws : search_laws not_low AdderE MinimizerE.
Proof.
  constructor; cbn; intros;
    repeat match goal with v : ext |- _ => destruct v; cbn in *; try contradiction; try discriminate end; auto;
    try (f_equal; lia); try (apply Z.ltb_ge; rewrite ?Z.ltb_ge, ?Z.ltb_lt in *; lia); try (rewrite ?Z.ltb_ge in *; lia).
  - unfold Minimizer_op2. cbn. destruct (Z.ltb_spec z0 z); destruct (Z.ltb_spec z z0); auto; f_equal; lia.
Qed.
(** The first entry that no other beats. *)
Fixpoint first_best (l : list (anode ext)) : nat :=
  match l with
  | [] => 0
  | a :: r => match nth_error r (first_best r) with Some b => if a_bop MinimizerE (an_value b) (an_value a) then S (first_best r) else 0 | None => 0 end
  end.
Example first_best_good : good_pick not_low MinimizerE (fun _ => first_best).
Proof.
  intros t l. induction l as [|a l IH]; intros Hn H; [congruence|]. inversion H; subst. cbn [first_best].
  destruct l as [|b l].
  - exists a. split; auto. constructor; [|constructor]. apply (sl_irrefl _ _ _ min_search_laws); auto.
  - destruct IH as (c & E & Hc); [discriminate|auto|]. rewrite E. assert (Kc : not_low (an_value c)) by (rewrite Forall_forall in H3; eapply H3, nth_error_In; eauto).
    destruct (a_bop MinimizerE (an_value c) (an_value a)) eqn:Eb.
    + exists c. split; [exact E|]. constructor; auto. apply (sl_asym _ _ _ min_search_laws); auto.
    + exists a. split; auto. constructor; [apply (sl_irrefl _ _ _ min_search_laws); auto|]. rewrite Forall_forall in *. intros d Hd.
      apply (sl_negtrans _ _ _ min_search_laws) with (b := an_value c); auto.
Qed.
(** An exact solver, by trying all labelings. *)
Definition try_all (g : gmv ext) (v i : nat) : outcome (list nat) :=
  match filter (fun x => nth v x 0 =? i) (map (coord_of (v_labels g)) (seq 0 (size_of (v_labels g)))) with
  | [] => Undef
  | x :: xs => Ret (fold_left (fun m y => if a_bop MinimizerE (total AdderE g y) (total AdderE g m) then y else m) xs x)
  end.
Definition new (g : gmv ext) (para : aparam ext) := astar_new ext MinimizerE (Fin 0) g para.
Definition infer (g : gmv ext) := astar_infer ext AdderE MinimizerE (Fin 0) g try_all (fun _ => first_best) (fun _ => false).
Definition ask (n k : nat) (h : heuristic) : aparam ext := mkAParam n k PInf h [] [].

(** ** A model that meets the hypotheses: three variables on a cycle, an infinite value, a constant *)
Definition ring : gmv ext := mkGmv [2; 3; 2]
  [([0], fun c => if nth 0 c 0 =? 0 then Fin 4 else Fin 0); ([0; 1], fun c => if nth 0 c 0 =? nth 1 c 0 then PInf else Fin (Z.of_nat (nth 1 c 0)));
   ([1; 2], fun c => if nth 0 c 0 =? nth 1 c 0 then Fin 0 else Fin 2); ([0; 2], fun c => if nth 0 c 0 =? nth 1 c 0 then Fin 5 else Fin 1); ([], fun _ => Fin 7)].
Example ring_wf : wf_gmv ring.
Proof. split; repeat constructor; cbn; lia. Qed.
Example ring_ok : ok_gmv not_low ring.
Proof. repeat constructor; intros x _; cbn; repeat match goal with |- context [if ?b then _ else _] => destruct b end; exact I. Qed.
Example ring_pairwise : Forall (fun fc : list nat * (list nat -> ext) => length (fst fc) <= 2) (v_factors ring).
Proof. repeat constructor; cbn; lia. Qed.
Example ring_simple : simple_pairs ring.
Proof.
  intros i j vis F G Ei Ej L2.
  do 5 (destruct i as [|i]; [cbn in Ei; injection Ei as <- _; try discriminate L2; do 5 (destruct j as [|j]; [cbn in Ej; try reflexivity; discriminate Ej|]); destruct j; discriminate Ej|]).
  destruct i; discriminate Ei.
Qed.
Example ring_result : exists s, (s <- new ring (ask 100 3 DEFAULTHEURISTIC) ;; infer ring 100 s) = Ret (s, NORMAL) /\
  as_optConf s = [[1; 0; 0]; [1; 2; 0]; [0; 1; 1]] /\ astar_bound ext s = Fin 6 /\ astar_value ext AdderE MinimizerE ring s = Ret (Fin 8).
Proof.
  destruct (s <- new ring (ask 100 3 DEFAULTHEURISTIC) ;; infer ring 100 s) as [[s t]| | |] eqn:E; [|vm_compute in E; discriminate..].
  exists s. vm_compute in E. injection E as <- <-. vm_compute. auto.
Qed.

(** ** What does not hold *)

(** Two factors with the same two variables: with the default parameters infer does not return. *)
Definition twins : gmv ext := mkGmv [2; 2] [([0; 1], fun c => Fin (Z.of_nat (nth 0 c 0))); ([0; 1], fun c => Fin (Z.of_nat (nth 1 c 0)))].
Lemma twins_loop : forall fuel, fh_loop ext AdderE MinimizerE (Fin 0) twins fuel (mkFheur [[Fin 0; Fin 0]; [Fin 0; Fin 0]] [2; 4] [0; 1]) = Diverge /\
  fh_loop ext AdderE MinimizerE (Fin 0) twins fuel (mkFheur [[Fin 0; Fin 0]; [Fin 0; Fin 0]] [2; 4] [1; 0]) = Diverge.
Proof. induction fuel as [|fuel [I1 I2]]; [split; reflexivity|]. split; cbn; auto. Qed.
Definition twins_start : astar ext := mkAStar (mkAParam 5 1 PInf FASTHEURISTIC [1; 0] [0; 1]) [mkANode [] (Fin 0)] [true; true] [Some (0, [Fin 0; Fin 1]); Some (0, [Fin 0; Fin 0])] [] NInf 0.
Lemma twins_heuristic : forall fuel s, as_param s = as_param twins_start -> as_isTreeFactor s = [true; true] -> fastHeuristic ext AdderE MinimizerE (Fin 0) twins fuel s [] = Diverge.
Proof.
  intros fuel [P l tr o c b t] E1 E2. cbn in E1, E2. subst P tr. unfold fastHeuristic.
  match goal with |- context [foldM ?f (seq 0 (length (v_factors twins))) ?x] => replace (foldM f (seq 0 (length (v_factors twins))) x) with (Ret (mkFheur [[Fin 0; Fin 0]; [Fin 0; Fin 0]] [2; 2] [1; 0])) by (vm_compute; reflexivity) end.
  cbn [bind rd nth_error length p_nodeOrder as_param twins_start fh_degree fh_energy fh_list].
  change (wr [2; 2] 1 (2 + length (v_labels twins))) with (Ret [2; 4]). cbn [bind]. rewrite (proj2 (twins_loop fuel)). reflexivity.
Qed.
Lemma twins_expand : forall fuel, expand ext AdderE MinimizerE (Fin 0) twins try_all (fun _ => first_best) fuel twins_start = Diverge.
Proof.
  intros fuel. unfold expand. replace (99 * p_maxHeapSize (as_param twins_start) <? 100 * length (as_array twins_start)) with false by (vm_compute; reflexivity).
  change (front ext (fun _ => first_best) twins_start) with (Ret (mkANode [] (Fin 0))). cbn [bind]. unfold heuristic_of.
  change (p_heuristic (as_param (pop ext (fun _ => first_best) twins_start))) with FASTHEURISTIC. cbn iota. rewrite twins_heuristic; reflexivity.
Qed.
Theorem C49_twins_refuted : ~ (forall g para, wf_gmv g -> ok_gmv not_low g -> Forall (fun fc => length (fst fc) <= 2) (v_factors g) ->
  100 * size_of (v_labels g) <= 99 * p_maxHeapSize para -> p_heuristic para = DEFAULTHEURISTIC -> p_nodeOrder para = [] -> p_treeFactorIds para = [] ->
  exists fuel s t, (s <- new g para ;; infer g fuel s) = Ret (s, t)).
Proof.
  intros H. destruct (H twins (ask 5 1 DEFAULTHEURISTIC)) as (fuel & s & t & E); auto.
  - split; repeat constructor; cbn; lia.
  - repeat constructor; intros; exact I.
  - repeat constructor.
  - vm_compute. lia.
  - assert (N : new twins (ask 5 1 DEFAULTHEURISTIC) = Ret twins_start) by (vm_compute; reflexivity). rewrite N in E. cbn [bind] in E. clear N.
    destruct fuel as [|[|fuel]]; [discriminate|discriminate|].
    unfold infer, astar_infer in E. change (with_opt ext twins_start []) with twins_start in E. set (f := S fuel) in E. cbn [search] in E.
    change ((length (as_array twins_start) =? 0) || false) with false in E. change (p_numberOfOpt (as_param twins_start) =? length (as_optConf twins_start)) with false in E. cbn iota in E.
    unfold f in E. cbn [descend] in E. change (front ext (fun _ => first_best) twins_start) with (Ret (mkANode [] (Fin 0))) in E. cbn [bind] in E.
    change (negb (length (an_conf (mkANode [] (Fin 0))) <? length (v_labels twins)) || false) with false in E. cbn iota in E. rewrite twins_expand in E. discriminate.
Qed.
Print Assumptions C49_twins_refuted.

Definition exact_solver (solve : gmv ext -> nat -> nat -> outcome (list nat)) : Prop :=
  forall g v i, wf_gmv g -> ok_gmv not_low g -> v < length (v_labels g) -> i < nth v (v_labels g) 0 ->
  exists x, solve g v i = Ret x /\ optimal_given AdderE MinimizerE g [(v, i)] x.
Example try_all_exact : exact_solver try_all.
Proof.
  intros g v i WF OK Hv Hi. unfold try_all. set (M := filter _ _).
  assert (IN : forall x, In x M <-> labeling g x /\ nth_error x v = Some i).
  { intros x. unfold M. rewrite filter_In. fold (L ext g). rewrite (L_in ext g (proj2 WF)). rewrite Nat.eqb_eq.
    split; intros [X Y]; split; auto.
    - rewrite <- Y. apply nth_error_nth'. rewrite (labeling_length _ _ _ X). auto.
    - apply nth_error_nth; auto. }
  assert (NE : M <> []).
  { set (y := map (fun w => if w =? v then i else 0) (seq 0 (length (v_labels g)))). assert (X : In y M).
    { apply IN. split.
      - apply in_shape_nths; unfold y; [rewrite map_length, seq_length; auto|]. intros w Hw. rewrite nth_map_seq by auto.
        cbn [Nat.add]. destruct (Nat.eqb_spec w v); [subst; auto|]. destruct WF as [_ PO]. unfold positive in PO. rewrite Forall_forall in PO. apply PO, nth_In; auto.
      - unfold y. rewrite nth_error_map, (nth_error_nth' _ 0) by (rewrite seq_length; auto). rewrite seq_nth by auto. cbn. rewrite Nat.eqb_refl. auto. }
    intros E. rewrite E in X. destruct X. }
  assert (KO : forall x, In x M -> not_low (total AdderE g x)) by (intros x Hx; apply (total_ok ext not_low AdderE MinimizerE min_search_laws g OK); apply IN; auto).
  destruct M as [|x xs]; [congruence|]. eexists. split; [reflexivity|].
  set (better := fun m y => if a_bop MinimizerE (total AdderE g y) (total AdderE g m) then y else m).
  assert (X : forall l m, not_low (total AdderE g m) -> (forall y, In y l -> not_low (total AdderE g y)) ->
    (fold_left better l m = m \/ In (fold_left better l m) l) /\ a_bop MinimizerE (total AdderE g m) (total AdderE g (fold_left better l m)) = false /\
    forall y, In y l -> a_bop MinimizerE (total AdderE g y) (total AdderE g (fold_left better l m)) = false).
  { induction l as [|a l IH]; intros m Km Kl; cbn [fold_left].
    - split; auto. split; [apply (sl_irrefl _ _ _ min_search_laws); auto|intros y []].
    - assert (Ka : not_low (total AdderE g a)) by (apply Kl; left; auto).
      assert (Kb : not_low (total AdderE g (better m a))) by (unfold better; destruct (a_bop _ _ _); auto).
      destruct (IH (better m a) Kb (fun y Hy => Kl y (or_intror Hy))) as (I1 & I2 & I3).
      assert (Kf : not_low (total AdderE g (fold_left better l (better m a)))) by (destruct I1 as [->|I1]; auto; apply Kl; right; auto).
      assert (Q : a_bop MinimizerE (total AdderE g m) (total AdderE g (better m a)) = false /\ a_bop MinimizerE (total AdderE g a) (total AdderE g (better m a)) = false).
      { unfold better. destruct (a_bop MinimizerE (total AdderE g a) (total AdderE g m)) eqn:Eb.
        - split; [apply (sl_asym _ _ _ min_search_laws); auto|apply (sl_irrefl _ _ _ min_search_laws); auto].
        - split; [apply (sl_irrefl _ _ _ min_search_laws); auto|auto]. }
      destruct Q as [Q1 Q2]. split; [|split].
      + destruct I1 as [E|I1]; [|right; right; auto]. rewrite E. unfold better. destruct (a_bop MinimizerE (total AdderE g a) (total AdderE g m)); [right; left; auto|left; auto].
      + eapply (sl_negtrans _ _ _ min_search_laws); [exact Km|exact Kb|exact Kf|exact Q1|exact I2].
      + intros y [<-|Hy]; auto. eapply (sl_negtrans _ _ _ min_search_laws); [exact Ka|exact Kb|exact Kf|exact Q2|exact I2]. }
  destruct (X xs x) as (X1 & X2 & X3); [apply KO; left; auto|intros y Hy; apply KO; right; auto|]. fold better.
  assert (IM : In (fold_left better xs x) (x :: xs)) by (destruct X1 as [->|X1]; [left; auto|right; auto]).
  apply IN in IM as [M1 M2]. split; auto. split; [constructor; auto|].
  intros y Hy HG. inversion HG; subst. cbn in H1. assert (Iy : In y (x :: xs)) by (apply IN; auto). destruct Iy as [<-|Iy]; auto.
Qed.

(** A factor of three variables: with the default parameters, the labeling that is found first is not always best.  The values
    a factor can still take are looked up at the labels of another variable when its first variable already has a label. *)
Definition triple : gmv ext := mkGmv [2; 2; 2]
  [([0; 1; 2], fun c => match c with 0 :: 0 :: _ => Fin 50 | 0 :: _ => Fin 0 | _ => Fin 100 end); ([0], fun _ => Fin 0); ([0], fun _ => Fin 0); ([1], fun _ => Fin 0)].
Example triple_wf : wf_gmv triple. Proof. split; repeat constructor; cbn; lia. Qed.
Example triple_ok : ok_gmv not_low triple.
Proof. repeat constructor; intros x _; cbn; try exact I. destruct (nth 0 x 0), (nth 1 x 0); exact I. Qed.
Theorem C49_triple_refuted : ~ (forall g para fuel s t x, wf_gmv g -> ok_gmv not_low g -> 100 * size_of (v_labels g) <= 99 * p_maxHeapSize para ->
  p_heuristic para = DEFAULTHEURISTIC -> p_nodeOrder para = [] -> p_treeFactorIds para = [] ->
  (s <- new g para ;; infer g fuel s) = Ret (s, t) -> nth_error (as_optConf s) 0 = Some x -> optimal AdderE MinimizerE g x).
Proof.
  intros H. destruct (s <- new triple (ask 10 1 DEFAULTHEURISTIC) ;; infer triple 50 s) as [[s t]| | |] eqn:E; [|vm_compute in E; discriminate..].
  assert (Q : nth_error (as_optConf s) 0 = Some [0; 0; 0]) by (vm_compute in E; injection E as <- <-; reflexivity).
  destruct (H triple (ask 10 1 DEFAULTHEURISTIC) 50 s t [0; 0; 0] triple_wf triple_ok ltac:(vm_compute; lia) eq_refl eq_refl eq_refl E Q) as [_ O].
  specialize (O [0; 1; 0] ltac:(repeat constructor)). vm_compute in O. discriminate.
Qed.
Print Assumptions C49_triple_refuted.
(** The same when the other heuristic is asked for: it reads such a factor at the labels 0 once all its variables have labels. *)
Theorem C49_fast_triple_refuted : ~ (forall g para fuel s t x, wf_gmv g -> ok_gmv not_low g -> 100 * size_of (v_labels g) <= 99 * p_maxHeapSize para ->
  p_heuristic para = FASTHEURISTIC -> (s <- new g para ;; infer g fuel s) = Ret (s, t) -> nth_error (as_optConf s) 0 = Some x -> optimal AdderE MinimizerE g x).
Proof.
  intros H. destruct (s <- new triple (ask 10 1 FASTHEURISTIC) ;; infer triple 50 s) as [[s t]| | |] eqn:E; [|vm_compute in E; discriminate..].
  assert (Q : nth_error (as_optConf s) 0 = Some [0; 0; 0]) by (vm_compute in E; injection E as <- <-; reflexivity).
  destruct (H triple (ask 10 1 FASTHEURISTIC) 50 s t [0; 0; 0] triple_wf triple_ok ltac:(vm_compute; lia) eq_refl E Q) as [_ O].
  specialize (O [0; 1; 0] ltac:(repeat constructor)). vm_compute in O. discriminate.
Qed.
Print Assumptions C49_fast_triple_refuted.

(** A small heap loses the best labeling; the result of infer is NORMAL all the same. *)
Definition frustrated : gmv ext := mkGmv [2; 2; 2]
  [([0; 1], fun _ => Fin 0); ([0; 2], fun _ => Fin 0); ([1; 2], fun c => if nth 1 c 0 =? 0 then Fin 10 else Fin 5); ([2], fun c => Fin (Z.of_nat (nth 0 c 0)))].
Example frustrated_wf : wf_gmv frustrated. Proof. split; repeat constructor; cbn; lia. Qed.
Example frustrated_ok : ok_gmv not_low frustrated.
Proof. repeat constructor; intros x _; cbn; try exact I. destruct (nth 2 x 0 =? 0); exact I. Qed.
Theorem C49_heap_refuted : ~ (forall g para fuel s x, wf_gmv g -> ok_gmv not_low g -> Forall (fun fc => length (fst fc) <= 2) (v_factors g) -> simple_pairs g ->
  p_heuristic para = DEFAULTHEURISTIC -> p_nodeOrder para = [] -> p_treeFactorIds para = [] -> 2 <= p_maxHeapSize para ->
  (s <- new g para ;; infer g fuel s) = Ret (s, NORMAL) -> nth_error (as_optConf s) 0 = Some x -> optimal AdderE MinimizerE g x).
Proof.
  intros H. destruct (s <- new frustrated (ask 2 1 DEFAULTHEURISTIC) ;; infer frustrated 50 s) as [[s t]| | |] eqn:E; [|vm_compute in E; discriminate..].
  assert (Q : nth_error (as_optConf s) 0 = Some [0; 0; 0] /\ t = NORMAL) by (vm_compute in E; injection E as <- <-; split; reflexivity). destruct Q as [Q ->].
  assert (SP : simple_pairs frustrated).
  { intros i j vis F G Ei Ej L2.
    do 4 (destruct i as [|i]; [cbn in Ei; injection Ei as <- _; try discriminate L2; do 4 (destruct j as [|j]; [cbn in Ej; try reflexivity; discriminate Ej|]); destruct j; discriminate Ej|]).
    destruct i; discriminate Ei. }
  destruct (H frustrated (ask 2 1 DEFAULTHEURISTIC) 50 s [0; 0; 0] frustrated_wf frustrated_ok ltac:(repeat constructor) SP eq_refl eq_refl eq_refl (le_n 2) E Q) as [_ O].
  specialize (O [0; 0; 1] ltac:(repeat constructor)). vm_compute in O. discriminate.
Qed.
Print Assumptions C49_heap_refuted.
(** A heap of size one: the search reads the front of an empty heap. *)
Theorem C49_heap_one_refuted : ~ (forall g para fuel, wf_gmv g -> ok_gmv not_low g -> Forall (fun fc => length (fst fc) <= 2) (v_factors g) -> simple_pairs g ->
  p_heuristic para = DEFAULTHEURISTIC -> p_nodeOrder para = [] -> p_treeFactorIds para = [] -> 1 <= p_maxHeapSize para ->
  (s <- new g para ;; infer g fuel s) <> Undef).
Proof. intros H. apply (H ring (ask 1 1 DEFAULTHEURISTIC) 50 ring_wf ring_ok ring_pairwise ring_simple eq_refl eq_refl eq_refl (le_n 1)). vm_compute. reflexivity. Qed.
Print Assumptions C49_heap_one_refuted.

(** bound() can be above the best value: with a factor without variables, and when more than one labeling is asked for. *)
Definition bonus : gmv ext := mkGmv [2] [([0], fun c => Fin (Z.of_nat (nth 0 c 0))); ([], fun _ => Fin (-5))].
Theorem C49_bound_constant_refuted : ~ (forall g para fuel s t v, wf_gmv g -> ok_gmv not_low g -> Forall (fun fc => length (fst fc) <= 2) (v_factors g) -> simple_pairs g ->
  para = ask (p_maxHeapSize para) 1 DEFAULTHEURISTIC -> 100 * size_of (v_labels g) <= 99 * p_maxHeapSize para ->
  (s <- new g para ;; infer g fuel s) = Ret (s, t) -> astar_value ext AdderE MinimizerE g s = Ret v -> a_bop MinimizerE v (astar_bound ext s) = false).
Proof.
  intros H. destruct (s <- new bonus (ask 5 1 DEFAULTHEURISTIC) ;; infer bonus 50 s) as [[s t]| | |] eqn:E; [|vm_compute in E; discriminate..].
  assert (Q : astar_value ext AdderE MinimizerE bonus s = Ret (Fin (-5)) /\ astar_bound ext s = Fin 0) by (vm_compute in E; injection E as <- <-; split; reflexivity). destruct Q as [Q1 Q2].
  assert (X : a_bop MinimizerE (Fin (-5)) (astar_bound ext s) = false); [|rewrite Q2 in X; discriminate].
  apply (H bonus (ask 5 1 DEFAULTHEURISTIC) 50 s t); auto.
  - split; repeat constructor; cbn; lia.
  - repeat constructor; intros; exact I.
  - repeat constructor.
  - intros i j vis F G Ei Ej L2. destruct i as [|[|i]]; cbn in Ei; [injection Ei as <- _; discriminate|injection Ei as <- _; discriminate|destruct i; discriminate].
  - vm_compute. lia.
Qed.
Print Assumptions C49_bound_constant_refuted.
Theorem C49_bound_second_refuted : ~ (forall g para fuel s t v, wf_gmv g -> ok_gmv not_low g -> Forall (fun fc => length (fst fc) <= 2 /\ 0 < length (fst fc)) (v_factors g) -> simple_pairs g ->
  para = ask (p_maxHeapSize para) (p_numberOfOpt para) DEFAULTHEURISTIC -> 100 * size_of (v_labels g) <= 99 * p_maxHeapSize para ->
  (s <- new g para ;; infer g fuel s) = Ret (s, t) -> astar_value ext AdderE MinimizerE g s = Ret v -> a_bop MinimizerE v (astar_bound ext s) = false).
Proof.
  intros H. set (g := without_constants bonus). destruct (s <- new g (ask 5 2 DEFAULTHEURISTIC) ;; infer g 50 s) as [[s t]| | |] eqn:E; [|vm_compute in E; discriminate..].
  assert (Q : astar_value ext AdderE MinimizerE g s = Ret (Fin 0) /\ astar_bound ext s = Fin 1) by (vm_compute in E; injection E as <- <-; split; reflexivity). destruct Q as [Q1 Q2].
  assert (X : a_bop MinimizerE (Fin 0) (astar_bound ext s) = false); [|rewrite Q2 in X; discriminate].
  apply (H g (ask 5 2 DEFAULTHEURISTIC) 50 s t); auto.
  - split; repeat constructor; cbn; lia.
  - repeat constructor; intros; exact I.
  - repeat constructor.
  - intros i j vis F G Ei Ej L2. destruct i as [|i]; cbn in Ei; [injection Ei as <- _; discriminate|destruct i; discriminate].
  - vm_compute. lia.
Qed.
Print Assumptions C49_bound_second_refuted.

(** Calling infer twice does not give the same value twice. *)
Theorem C49_repeat_refuted : ~ (forall g para fuel s0 s t s' t', wf_gmv g -> ok_gmv not_low g -> Forall (fun fc => length (fst fc) <= 2) (v_factors g) -> simple_pairs g ->
  para = ask (p_maxHeapSize para) 1 DEFAULTHEURISTIC -> 100 * size_of (v_labels g) <= 99 * p_maxHeapSize para ->
  new g para = Ret s0 -> infer g fuel s0 = Ret (s, t) -> infer g fuel s = Ret (s', t') -> astar_value ext AdderE MinimizerE g s' = astar_value ext AdderE MinimizerE g s).
Proof.
  intros H. destruct (new ring (ask 13 1 DEFAULTHEURISTIC)) as [s0| | |] eqn:E0; [|vm_compute in E0; discriminate..].
  destruct (infer ring 50 s0) as [[s t]| | |] eqn:E1; [|vm_compute in E0; injection E0 as <-; vm_compute in E1; discriminate..].
  destruct (infer ring 50 s) as [[s' t']| | |] eqn:E2; [|vm_compute in E0; injection E0 as <-; vm_compute in E1; injection E1 as <- <-; vm_compute in E2; discriminate..].
  assert (X := H ring (ask 13 1 DEFAULTHEURISTIC) 50 s0 s t s' t' ring_wf ring_ok ring_pairwise ring_simple eq_refl ltac:(vm_compute; lia) E0 E1 E2).
  vm_compute in E0. injection E0 as <-. vm_compute in E1. injection E1 as <- <-. vm_compute in E2. injection E2 as <- <-. vm_compute in X. discriminate.
Qed.
Print Assumptions C49_repeat_refuted.
(** infer does not return NORMAL when it finds all the labelings that were asked for and there are no others. *)
Theorem C49_normal_refuted : ~ (forall g para fuel s t, wf_gmv g -> ok_gmv not_low g -> Forall (fun fc => length (fst fc) <= 2) (v_factors g) -> simple_pairs g ->
  para = ask (p_maxHeapSize para) (p_numberOfOpt para) DEFAULTHEURISTIC -> 100 * size_of (v_labels g) <= 99 * p_maxHeapSize para ->
  (s <- new g para ;; infer g fuel s) = Ret (s, t) -> length (as_optConf s) = p_numberOfOpt para -> t = NORMAL).
Proof.
  intros H. destruct (s <- new ring (ask 13 12 DEFAULTHEURISTIC) ;; infer ring 50 s) as [[s t]| | |] eqn:E; [|vm_compute in E; discriminate..].
  assert (Q : length (as_optConf s) = 12 /\ t = UNKNOWN) by (vm_compute in E; injection E as <- <-; split; reflexivity). destruct Q as [Q1 ->].
  discriminate (H ring (ask 13 12 DEFAULTHEURISTIC) 50 s UNKNOWN ring_wf ring_ok ring_pairwise ring_simple eq_refl ltac:(vm_compute; lia) E Q1).
Qed.
Print Assumptions C49_normal_refuted.
