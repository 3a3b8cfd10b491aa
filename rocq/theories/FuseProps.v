(** C55: fusion moves (FusionMove) and HQPBO.
    Spec: FuseSpec.v, HoeSpec.v, GmViewSpec.v; models: FuseModel.v (fix-fusion/fusion-move.hpp), HqpboModel.v (hqpbo.hxx). *)
From Coq Require Import QArith Qcanon Sorting.Sorted Permutation.
From Verif Require Import Base Values GmView GmViewSpec ShapeSpec AlphaBetaSwapSpec DualDecompModel HoeModel HoeSpec HoeProofs HoeElim HoeReduce HoeProps FuseModel FuseProofs FuseSpec HqpboModel FuseMoves.
Open Scope nat_scope.

(** *** There is such a solver: trying all assignments *)
Fixpoint all_bits (n : nat) : list (list bool) := match n with 0 => [[]] | S n => map (cons false) (all_bits n) ++ map (cons true) (all_bits n) end.
Definition as_fun (l : list bool) (v : nat) : bool := nth v l false.
Fixpoint best_bits (q : quad) (l : list (list bool)) (b : list bool) : list bool :=
  match l with [] => b | a :: l => best_bits q l (if qpos (q_value q (as_fun b) - q_value q (as_fun a))%Qc then a else b) end.
Definition try_all : qsolver := fun q i => if i <? q_nodes q then Some (as_fun (best_bits q (all_bits (q_nodes q)) (repeat false (q_nodes q))) i) else None.
Lemma qpos_spec c : qpos c = true <-> (0 < c)%Qc.
Proof. unfold qpos. destruct (Qclt_le_dec 0 c) as [H|H]; split; auto; [discriminate|]. intros H'. exfalso. apply (Qcle_not_lt _ _ H). exact H'. Qed.
Lemma best_bits_ok q : forall l b, (q_value q (as_fun (best_bits q l b)) <= q_value q (as_fun b))%Qc /\ forall a, In a l -> (q_value q (as_fun (best_bits q l b)) <= q_value q (as_fun a))%Qc.
Proof.
  induction l as [|a l IH]; intros b; cbn [best_bits]; [split; [qlra|intros a []]|].
  set (b' := if qpos (q_value q (as_fun b) - q_value q (as_fun a))%Qc then a else b). destruct (IH b') as [I1 I2].
  assert (X : (q_value q (as_fun b') <= q_value q (as_fun b))%Qc /\ (q_value q (as_fun b') <= q_value q (as_fun a))%Qc).
  { unfold b'. destruct (qpos (q_value q (as_fun b) - q_value q (as_fun a))%Qc) eqn:P; [apply qpos_spec in P; split; qlra|]. split; [qlra|]. destruct (Qclt_le_dec 0 (q_value q (as_fun b) - q_value q (as_fun a))%Qc) as [H|H]; [apply qpos_spec in H; congruence|qlra]. }
  destruct X as [X1 X2]. split; [qlra|]. intros a' [<-|H]; [qlra|]. apply I2. exact H.
Qed.
Lemma all_bits_in (x : nat -> bool) : forall n k, In (map x (seq k n)) (all_bits n).
Proof. induction n as [|n IH]; intros k; [left; reflexivity|]. cbn [seq map all_bits]. apply in_or_app. destruct (x k); [right|left]; apply in_map; apply IH. Qed.
Theorem C55_solver_exists : qpbo_solver try_all /\ complete_solver try_all.
Proof.
  split.
  - intros q C x. set (b := best_bits q (all_bits (q_nodes q)) (repeat false (q_nodes q))).
    replace (q_value q (patch (try_all q) x)) with (q_value q (as_fun b)).
    2:{ symmetry. apply q_value_ext; [exact C|]. intros v Hv. unfold patch, try_all. rewrite (proj2 (Nat.ltb_lt v (q_nodes q)) Hv). reflexivity. }
    replace (q_value q x) with (q_value q (as_fun (map x (seq 0 (q_nodes q))))).
    2:{ apply q_value_ext; [exact C|]. intros v Hv. unfold as_fun. apply nth_map_seq. exact Hv. }
    apply (proj2 (best_bits_ok q _ _)). apply all_bits_in.
  - intros q i _ Hi. unfold try_all. rewrite (proj2 (Nat.ltb_lt i (q_nodes q)) Hi). discriminate.
Qed.

(** *** FusionMove *)
Theorem C55_fusion_move D size current proposed cliques solve : cliques_ok D size cliques -> length current = size -> length proposed = size -> qpbo_solver solve ->
  exists out, FusionMove D size current proposed cliques solve = Ret out /\ fused current proposed out /\
    (clique_energy cliques out <= clique_energy cliques current)%Qc /\
    (complete_solver solve -> forall z, fused current proposed z -> (clique_energy cliques out <= clique_energy cliques z)%Qc).
Proof.
  intros OK LC LP QP. set (A := fun v => nth v current 0). set (B := fun v => nth v proposed 0).
  assert (L0 : forall v, v < size -> rd current v = Ret (A v)) by (intros v Hv; apply rd_nth; lia). assert (L1 : forall v, v < size -> rd proposed v = Ret (B v)) by (intros v Hv; apply rd_nth; lia).
  destruct (setup_ok D size (fun c l => Ret (snd c l)) _ _ A B cliques L0 L1 OK ltac:(reflexivity)) as (h & E & R).
  destruct (move_ok D size A B cliques OK solve QP h R) as (h' & q & E' & _ & C & N & P). unfold FusionMove. rewrite E. cbn [bind]. rewrite E'. cbn [bind].
  rewrite (mapM_Ret _ (mix A B (patch (solve q) (fun _ => false)))).
  2:{ intros i Hi. apply in_seq in Hi. unfold mix, patch. destruct (solve q i) as [[|]|]; [apply L1|apply L0|apply L0]; lia. }
  eexists. split; [reflexivity|]. rewrite (energy_at cliques D size _ OK). split.
  - split; [rewrite map_length, seq_length; lia|]. intros i. destruct (Nat.lt_ge_cases i size) as [Hi|Hi]; [rewrite nth_map_seq by exact Hi; unfold mix; destruct (patch _ _ i); auto|].
    left. rewrite !nth_overflow; [reflexivity|lia|rewrite map_length, seq_length; exact Hi].
  - assert (EA : clique_energy cliques current = qsum (map (fun c => snd c (map A (fst c))) cliques)).
    { rewrite <- (map_nth_seq current). rewrite LC. apply (energy_at cliques D size _ OK). }
    split.
    + pose proof (P (fun _ => false)) as P0. unfold fenergy in P0. rewrite EA. change (mix A B (fun _ => false)) with (fun v => A v) in P0. change (fun v => A v) with A in P0. qlra.
    + intros CS z Fz. destruct (fused_mix current proposed z ltac:(lia) Fz) as (b & ->). rewrite LC, (energy_at cliques D size _ OK). fold A B. specialize (P b). unfold fenergy in P.
      replace (map (fun c => snd c (map (mix A B (patch (solve q) (fun _ => false))) (fst c))) cliques) with (map (fun c => snd c (map (mix A B (patch (solve q) b)) (fst c))) cliques); [qlra|].
      apply map_ext_in. intros c Hc. f_equal. apply map_ext_in. intros v Hv. unfold mix, patch. assert (Hn : v < size) by (unfold cliques_ok in OK; rewrite Forall_forall in OK; destruct (OK c Hc) as (_ & F & _); rewrite Forall_forall in F; apply F; exact Hv).
      destruct (solve q v) eqn:S; [reflexivity|]. exfalso. apply (CS q v C ltac:(lia) S).
Qed.

(** *** HQPBO *)
Section Hqpbo.
Variables (g : gmv Qc) (solve : qsolver).
Hypothesis W : wf_gmv g.
Hypothesis K : same_labels 2 g.
Hypothesis O : order_at_most 10 g.
Hypothesis QP : qpbo_solver solve.
Let n := length (v_labels g).
Definition hq_legal (o : hqop) : Prop := match o with HInfer => True | HStart x => labeling g x end.
Let Z0 := fun _ : nat => 0. Let Z1 := fun _ : nat => 1.
Let inv (s : hq) : Prop := represents 10 n (hq_hoe s) (fenergy Z0 Z1 (v_factors g)) /\ labeling g (hq_conf s).
Lemma two v : v < n -> nth v (v_labels g) 0 = 2.
Proof. intros H. unfold same_labels in K. rewrite Forall_forall in K. apply K. apply nth_In. exact H. Qed.
Lemma as_mix x : labeling g x -> x = map (mix Z0 Z1 (fun v => nth v x 0 =? 1)) (seq 0 n).
Proof.
  intros H. apply labeling_nth in H. destruct H as [L H]. apply (nth_ext _ _ 0 0); [rewrite map_length, seq_length; exact L|]. intros v Hv. rewrite nth_map_seq by (unfold n; lia). specialize (H v Hv). rewrite two in H by (unfold n; lia).
  unfold mix. destruct (Nat.eqb_spec (nth v x 0) 1) as [E|E]; [exact E|unfold Z0; lia].
Qed.
Lemma LA0 : forall v, v < n -> (fun _ : nat => Ret 0) v = Ret (Z0 v) /\ Z0 v < nth v (v_labels g) 0.
Proof. intros v Hv. split; [reflexivity|]. rewrite two by exact Hv. unfold Z0. lia. Qed.
Lemma LB0 : forall v, v < n -> (fun _ : nat => Ret 1) v = Ret (Z1 v) /\ Z1 v < nth v (v_labels g) 0.
Proof. intros v Hv. split; [reflexivity|]. rewrite two by exact Hv. unfold Z1. lia. Qed.
Lemma hq_infer_ok s : inv s -> exists s', hq_infer g solve s = Ret s' /\ inv s' /\ no_worse g (hq_arg s') (hq_arg s) /\ (complete_solver solve -> best_labeling g (hq_arg s')).
Proof.
  intros [R L]. destruct (move_ok 10 n Z0 Z1 (v_factors g) (wf_cliques_ok g W O) solve QP _ R) as (h' & q & E & R' & C & N & P). unfold hq_infer. rewrite E. cbn [bind].
  assert (LL : length (hq_conf s) = n) by (apply labeling_nth in L; apply L).
  assert (X : foldM (fun conf i => match solve q i with Some false => wr conf i 0 | Some true => wr conf i 1 | None => Ret conf end) (seq 0 (length (v_labels g))) (hq_conf s) =
    Ret (map (mix Z0 Z1 (patch (solve q) (fun v => nth v (hq_conf s) 0 =? 1))) (seq 0 n))).
  { rewrite (foldM_ext _ (fun conf i => match (match solve q i with Some true => Some 1 | Some false => Some 0 | None => None end) with Some v => wr conf i v | None => Ret conf end)) by (intros; destruct (solve q a) as [[|]|]; reflexivity).
    fold n. rewrite <- LL, foldM_set_all. rewrite LL. f_equal. apply map_ext_in. intros i Hi. apply in_seq in Hi. unfold mix, patch. pose proof (as_mix _ L) as EM. apply (f_equal (fun l => nth i l 0)) in EM. rewrite nth_map_seq in EM by lia. unfold mix in EM. destruct (solve q i) as [[|]|]; [reflexivity|reflexivity|exact EM]. }
  rewrite X. cbn [bind]. eexists. split; [reflexivity|]. split; [split; [exact R'|apply (model_labeling g _ _ Z0 Z1 LA0 LB0)]|]. cbn [hq_arg hq_conf]. unfold no_worse, best_labeling.
  split.
  - unfold hq_arg. replace (menergy g (hq_conf s)) with (menergy g (map (mix Z0 Z1 (fun v => nth v (hq_conf s) 0 =? 1)) (seq 0 n))) by (rewrite <- as_mix by exact L; reflexivity). unfold n. rewrite !(model_energy g Z0 Z1 W O). specialize (P (fun v => nth v (hq_conf s) 0 =? 1)). qlra.
  - intros CS. split; [apply (model_labeling g _ _ Z0 Z1 LA0 LB0)|]. intros y Ly. unfold no_worse. rewrite (as_mix y Ly). unfold n. rewrite !(model_energy g Z0 Z1 W O).
    specialize (P (fun v => nth v y 0 =? 1)). fold n.
    rewrite (fenergy_ext 10 n Z0 Z1 (v_factors g) (wf_cliques_ok g W O) (patch (solve q) (fun v => nth v y 0 =? 1)) (patch (solve q) (fun v => nth v (hq_conf s) 0 =? 1))); [qlra|].
    intros v Hv. unfold patch. destruct (solve q v) eqn:S; [reflexivity|]. exfalso. apply (CS q v C ltac:(lia) S).
Qed.
Lemma hq_run_ok : forall ops, Forall hq_legal ops -> exists s, hq_run g solve ops = Ret s /\ inv s.
Proof.
  intros ops F. unfold hq_run, hq_new. destruct (model_setup g (fun _ => Ret 0) (fun _ => Ret 1) Z0 Z1 W O LA0 LB0) as (h & E & R). rewrite E. cbn [bind].
  assert (I : inv (mkHq h (repeat 0 (length (v_labels g))))).
  { split; [exact R|]. apply labeling_nth. cbn [hq_conf]. rewrite repeat_length. split; [reflexivity|]. intros v Hv. rewrite two by exact Hv. rewrite nth_repeat. lia. }
  revert I. generalize (mkHq h (repeat 0 (length (v_labels g)))). induction F as [|o ops Ho _ IH]; intros s I; cbn [foldM]; [exists s; split; [reflexivity|exact I]|].
  destruct o as [|x]; cbn [hq_step].
  - destruct (hq_infer_ok s I) as (s' & E' & I' & _). rewrite E'. cbn [bind]. apply IH. exact I'.
  - unfold hq_setStart. cbn in Ho. assert (LX : length x = n) by (apply labeling_nth in Ho; apply Ho). fold n. rewrite <- LX. rewrite (mapM_Ret _ (fun i => nth i x 0)) by (intros i Hi; apply in_seq in Hi; apply rd_nth; lia).
    rewrite map_nth_seq. cbn [bind]. apply IH. split; [apply I|exact Ho].
Qed.

(** Whatever was called before: infer succeeds, arg() is a labeling and not worse than before, and it is optimal if QPBO
    labels all variables. *)
Theorem C55_hqpbo ops : Forall hq_legal ops -> exists s s', hq_run g solve ops = Ret s /\ hq_infer g solve s = Ret s' /\
  labeling g (hq_arg s) /\ labeling g (hq_arg s') /\ no_worse g (hq_arg s') (hq_arg s) /\ (complete_solver solve -> best_labeling g (hq_arg s')).
Proof.
  intros F. destruct (hq_run_ok ops F) as (s & E & I). destruct (hq_infer_ok s I) as (s' & E' & I' & A & B). exists s, s'. split; [exact E|]. split; [exact E'|]. split; [apply I|]. split; [apply I'|]. split; [exact A|exact B].
Qed.
(** setStartingPoint sets the labeling; before it, it is all zero. *)
Theorem C55_hqpbo_start ops x : Forall hq_legal ops -> labeling g x -> exists s s', hq_run g solve ops = Ret s /\ hq_setStart g s x = Ret s' /\ hq_arg s' = x /\ (ops = [] -> hq_arg s = repeat 0 (length (v_labels g))).
Proof.
  intros F Lx. destruct (hq_run_ok ops F) as (s & E & I). assert (LX : length x = n) by (apply labeling_nth in Lx; apply Lx). exists s. unfold hq_setStart. fold n. rewrite <- LX. rewrite (mapM_Ret _ (fun i => nth i x 0)) by (intros i Hi; apply in_seq in Hi; apply rd_nth; lia).
  rewrite map_nth_seq. cbn [bind]. eexists. split; [exact E|]. split; [reflexivity|]. split; [reflexivity|]. intros ->. unfold hq_run, hq_new in E. destruct (setup_energy _ _ _ _ _ _); try discriminate E. cbn in E. injection E as <-. unfold n in LX. rewrite LX. reflexivity.
Qed.
End Hqpbo.

(** A factor with more than ten variables overflows the array of variables. *)
Lemma mapM_undef {X Y} (f : X -> outcome Y) : forall l, (forall a, In a l -> f a = Undef \/ exists b, f a = Ret b) -> (exists a, In a l /\ f a = Undef) -> mapM f l = Undef.
Proof.
  induction l as [|a l IH]; intros H (u & Hu & Eu); [destruct Hu|]. cbn [mapM]. destruct (H a (or_introl eq_refl)) as [E|[b E]]; rewrite E; cbn [bind]; [reflexivity|].
  destruct Hu as [<-|Hu]; [congruence|]. rewrite IH; [reflexivity|intros; apply H; right; assumption|exists u; auto].
Qed.
Lemma subset_vars_cases D s vis : subset_vars D s vis = Undef \/ exists l, subset_vars D s vis = Ret l.
Proof.
  unfold subset_vars. assert (G : forall (l : list (nat * nat)) (acc : list nat), foldM (fun vars p => if Nat.testbit s (fst p) then if length vars <? D then Ret (vars ++ [snd p]) else Undef else Ret vars) l acc = Undef \/ exists l', foldM (fun vars p => if Nat.testbit s (fst p) then if length vars <? D then Ret (vars ++ [snd p]) else Undef else Ret vars) l acc = Ret l'); [|apply G].
  induction l as [|p l IH]; intros acc; cbn [foldM]; [right; eauto|]. destruct (Nat.testbit s (fst p)); cbn [bind]; [|apply IH]. destruct (length acc <? D); cbn [bind]; [apply IH|left; reflexivity].
Qed.
Lemma subset_vars_full D vis : D < length vis -> subset_vars D (2 ^ length vis - 1) vis = Undef.
Proof.
  intros H. unfold subset_vars. set (s := 2 ^ length vis - 1).
  assert (T : forall i, i < length vis -> Nat.testbit s i = true). { intros i Hi. unfold s. rewrite Nat.sub_1_r, <- Nat.ones_equiv. apply Nat.ones_spec_low. exact Hi. }
  assert (G : forall (vs : list nat) k (acc : list nat), k + length vs <= length vis -> D < length acc + length vs -> foldM (fun vars p => if Nat.testbit s (fst p) then if length vars <? D then Ret (vars ++ [snd p]) else Undef else Ret vars) (combine (seq k (length vs)) vs) acc = Undef \/ D < length acc).
  { induction vs as [|v vs IH]; intros k acc Hk Hl; cbn [length] in *; [right; lia|]. cbn [seq combine foldM fst snd]. rewrite T by lia. destruct (Nat.ltb_spec (length acc) D); cbn [bind]; [|left; reflexivity].
    destruct (IH (S k) (acc ++ [v])) as [E|E]; [lia|rewrite app_length; cbn; lia|left; exact E|rewrite app_length in E; cbn in E; lia]. }
  destruct (G vis 0 []) as [E|E]; [lia|cbn; lia|exact E|cbn in E; lia].
Qed.
Theorem C55_order_refuted (g : gmv Qc) : wf_gmv g -> same_labels 2 g -> ~ order_at_most 10 g -> hq_new g = Undef.
Proof.
  intros W K NO. unfold hq_new, setup_energy. rewrite mapM_undef; [reflexivity| |].
  - intros c Hc. assert (F : Forall (fun v => v < length (v_labels g)) (fst c)) by (destruct W as [W _]; rewrite Forall_forall in W; apply W; exact Hc).
    assert (LA := LA0 g K). assert (LB := LB0 g K). unfold clique_calls. destruct (fst c) as [|v [|w vs]] eqn:V; [right; eexists; reflexivity| |].
    + inversion F; subst. cbn [bind]. destruct (factor_at g c [0]) as [a| | |] eqn:E0; unfold factor_at in E0; destruct (forallb _ _) in E0; try discriminate E0; cbn [bind]; [|left; reflexivity].
      destruct (factor_at g c [1]) as [b| | |] eqn:E1; unfold factor_at in E1; destruct (forallb _ _) in E1; try discriminate E1; cbn [bind]; [right; eexists; reflexivity|left; reflexivity].
    + rewrite <- V in *. rewrite (coefficients_ok (length (fst c)) _ (fun m => snd c (bits_labels (fun _ => 0) (fun _ => 1) m (fst c)))).
      2:{ intros a _. rewrite (clique_labels_ok (length (v_labels g)) _ _ (fun _ => 0) (fun _ => 1)) by (auto; intros; reflexivity). cbn [bind]. apply factor_at_ok.
          assert (X := bits_labels_in (fun _ => 0) (fun _ => 1) (fst c) a). clear V. induction X as [|u b l l' Hu _ IH]; constructor; inversion F; subst; auto. rewrite (two g K) by assumption. destruct Hu; lia. }
      cbn [bind]. match goal with |- mapM ?f ?l = _ \/ _ => assert (Q : forall s, In s l -> f s = Undef \/ exists b, f s = Ret b) end.
      { intros s Hs. apply in_seq in Hs. destruct (subset_vars_cases 10 s (fst c)) as [E|[l E]]; rewrite E; cbn [bind]; [left; reflexivity|]. rewrite rd_map by lia. cbn [bind]. right. eexists. reflexivity. }
      revert Q. generalize (seq 1 (2 ^ length (fst c) - 1)). induction l as [|s l IH]; intros Q; cbn [mapM]; [right; eexists; reflexivity|].
      destruct (Q s (or_introl eq_refl)) as [E|[b E]]; rewrite E; cbn [bind]; [left; reflexivity|]. destruct IH as [E'|[b' E']]; [intros; apply Q; right; assumption|rewrite E'; left; reflexivity|rewrite E'; right; eexists; reflexivity].
  - assert (X : exists c, In c (v_factors g) /\ 10 < length (fst c)).
    { unfold order_at_most in NO. apply Exists_exists. apply neg_Forall_Exists_neg in NO; [|intros c; apply le_dec]. eapply Exists_impl; [|exact NO]. cbn. intros; lia. }
    destruct X as (c & Hc & Lc). exists c. split; [exact Hc|]. assert (F : Forall (fun v => v < length (v_labels g)) (fst c)) by (destruct W as [W _]; rewrite Forall_forall in W; apply W; exact Hc).
    unfold clique_calls. destruct (fst c) as [|v [|w vs]] eqn:V; try (cbn in Lc; lia). rewrite <- V in *.
    rewrite (coefficients_ok (length (fst c)) _ (fun m => snd c (bits_labels (fun _ => 0) (fun _ => 1) m (fst c)))).
    2:{ intros a _. rewrite (clique_labels_ok (length (v_labels g)) _ _ (fun _ => 0) (fun _ => 1)) by (auto; intros; reflexivity). cbn [bind]. apply factor_at_ok.
        assert (X := bits_labels_in (fun _ => 0) (fun _ => 1) (fst c) a). clear V Lc. induction X as [|u b l l' Hu _ IH]; constructor; inversion F; subst; auto. rewrite (two g K) by assumption. destruct Hu; lia. }
    cbn [bind]. apply mapM_undef.
    + intros s Hs. apply in_seq in Hs. destruct (subset_vars_cases 10 s (fst c)) as [E|[l E]]; rewrite E; cbn [bind]; [left; reflexivity|]. rewrite rd_map by lia. cbn [bind]. right. eexists. reflexivity.
    + exists (2 ^ length (fst c) - 1). assert (1 < 2 ^ length (fst c)) by (apply Nat.pow_gt_1; lia). split; [apply in_seq; lia|]. rewrite subset_vars_full by exact Lc. reflexivity.
Qed.

(** *** Examples *)
(** Three variables with two labels, a factor over all three, a pair and a unary. *)
Definition ex_gm : gmv Qc := mkGmv [2; 2; 2]
  [([0; 1; 2], fun l => match l with [1; 1; 0] => Q2Qc (-5) | [1; 1; 1] => Q2Qc 3 | _ => Q2Qc 1 end);
   ([0; 2], fun l => match l with [a; b] => if a =? b then 0%Qc else 1%Qc | _ => 0%Qc end);
   ([1], fun l => match l with [0] => 0%Qc | _ => Q2Qc 2 end)].
Lemma ex_wf : wf_gmv ex_gm /\ same_labels 2 ex_gm /\ order_at_most 10 ex_gm.
Proof. split; [|split]; [split|..]; repeat constructor; cbn; try lia; intuition lia. Qed.
Example C55_hqpbo_example : exists s s', hq_run ex_gm try_all [HInfer; HStart [1; 0; 1]] = Ret s /\ hq_arg s = [1; 0; 1] /\ hq_infer ex_gm try_all s = Ret s' /\ hq_arg s' = [1; 1; 0] /\
  Forall (hq_legal ex_gm) [HInfer; HStart [1; 0; 1]] /\ ~ no_worse ex_gm [1; 0; 1] [1; 1; 0].
Proof.
  destruct (hq_run ex_gm try_all [HInfer; HStart [1; 0; 1]]) as [s| | |] eqn:R; [|vm_compute in R; discriminate R..]. vm_compute in R. injection R as <-.
  do 2 eexists. split; [reflexivity|]. split; [reflexivity|]. split; [vm_compute; reflexivity|]. split; [reflexivity|]. split.
  - repeat constructor.
  - vm_compute. intros H. apply H. reflexivity.
Qed.
Definition ex_cliques : list clique := v_factors ex_gm.
Example C55_fusion_move_example : FusionMove 3 3 [0; 1; 0] [1; 0; 1] ex_cliques try_all = Ret [1; 1; 0] /\ cliques_ok 3 3 ex_cliques.
Proof. split; [vm_compute; reflexivity|]. repeat constructor; cbn; try lia; intuition lia. Qed.
(** QPBO may label nothing; then the result is the current labeling even if the proposed one is better. *)
Lemma none_solver : qpbo_solver (fun _ _ => None).
Proof. intros q _ x. unfold patch. change (fun v : nat => x v) with x. qlra. Qed.
Theorem C55_proposal_refuted : ~ (forall D size current proposed cliques solve out, cliques_ok D size cliques -> length current = size -> length proposed = size -> qpbo_solver solve ->
  FusionMove D size current proposed cliques solve = Ret out -> (clique_energy cliques out <= clique_energy cliques proposed)%Qc).
Proof.
  intros H. specialize (H 3 3 [0; 1; 0] [1; 1; 0] ex_cliques (fun _ _ => None) [0; 1; 0] (proj2 C55_fusion_move_example) eq_refl eq_refl none_solver ltac:(vm_compute; reflexivity)). vm_compute in H. apply H. reflexivity.
Qed.
(** A variable with one label is read beyond its labels, one with three labels never gets label 2. *)
Definition one_gm : gmv Qc := mkGmv [1] [([0], fun _ => 1%Qc)].
Definition three_gm : gmv Qc := mkGmv [3] [([0], fun l => match l with [2] => 0%Qc | _ => 1%Qc end)].
Theorem C55_labels_refuted : wf_gmv one_gm /\ hq_new one_gm = Undef /\ wf_gmv three_gm /\
  exists s, hq_run three_gm try_all [HInfer] = Ret s /\ ~ best_labeling three_gm (hq_arg s).
Proof.
  split; [split; repeat constructor; cbn; intuition lia|]. split; [reflexivity|]. split; [split; repeat constructor; cbn; intuition lia|].
  eexists. split; [vm_compute; reflexivity|]. intros [_ B]. specialize (B [2] ltac:(repeat constructor)). vm_compute in B. apply B. reflexivity.
Qed.
(** A factor with eleven variables. *)
Definition eleven_gm : gmv Qc := mkGmv (repeat 2 11) [(seq 0 11, fun _ => 1%Qc)].
Example C55_order_example : wf_gmv eleven_gm /\ same_labels 2 eleven_gm /\ ~ order_at_most 10 eleven_gm.
Proof. split; [|split]; [split; repeat constructor; cbn; intuition lia|repeat constructor|]. intros H. inversion H; subst. cbn in *. lia. Qed.

Print Assumptions C55_solver_exists.
Print Assumptions C55_fusion_move.
Print Assumptions C55_hqpbo.
Print Assumptions C55_hqpbo_start.
Print Assumptions C55_order_refuted.
Print Assumptions C55_proposal_refuted.
Print Assumptions C55_labels_refuted.
