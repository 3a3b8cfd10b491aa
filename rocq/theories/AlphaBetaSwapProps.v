(** C41: AlphaBetaSwap never worsens the labeling and makes optimal swap moves, given a correct max-flow library. *)
From Verif Require Import Base Values GmView GmViewSpec ShapeSpec ShapeProofs GmViewProofs GraphCutModel GraphCutSpec GraphCutProofs GraphCutProps AlphaBetaSwapModel AlphaBetaSwapSpec AlphaBetaSwapProofs.
Local Open Scope Z_scope.

(** An AlphaBetaSwap object after construction and some calls. *)
Definition swrun (maxi : bool) (cut : nat -> list edge -> list bool) (g : gmv Z) (maxNumberOfIterations : nat) (ops : list swop) : outcome sw :=
  s <- sw_new g ;; foldM (swstep maxi cut g maxNumberOfIterations) ops s.
Definition no_infer (o : swop) : Prop := match o with SInfer _ => False | _ => True end.

Section Props.
Variable maxi : bool.
Variable cut : nat -> list edge -> list bool.
Variable g : gmv Z.
Variable k : nat.
Hypothesis HC : min_cut_solver cut.
Hypothesis W : wf_gmv g.
Hypothesis SL : same_labels k g.
Hypothesis SO : second_order g.
Hypothesis SS : swap_submodular maxi k g.

Lemma zeros_legal : labeling g (repeat 0%nat (length (v_labels g))).
Proof.
  apply (same_labeling k g _ SL). split; [apply repeat_length|]. destruct W as [_ P]. unfold same_labels, positive in *. induction (v_labels g) as [|l ls IH]; cbn; constructor; inversion P; inversion SL; subst; auto.
Qed.
Lemma start_ok : forall s x, labeling g x -> sw_setStart g s x = Ret (mkSw x (sw_alpha s) (sw_beta s)).
Proof.
  intros s x H. unfold sw_setStart, sw_numVar. rewrite <- (labeling_length _ g x H). rewrite (mapM_Ret _ _ _ (fun i => nth i x 0%nat)).
  - cbn [bind]. f_equal. f_equal. clear H. induction x as [|a x IH]; cbn; auto. f_equal. rewrite <- seq_shift, map_map. auto.
  - intros i Hi. apply in_seq in Hi. apply rd_nth. lia.
Qed.
Lemma run_ok : forall mi ops, Forall (swlegal g) ops -> exists s, swrun maxi cut g mi ops = Ret s /\ labeling g (sw_label s) /\ pair_ok k s /\
  (Forall no_infer ops -> sw_alpha s = 0%nat /\ sw_beta s = 0%nat).
Proof.
  intros mi ops HO. unfold swrun, sw_new. replace (existsb _ _) with false.
  2:{ symmetry. unfold second_order in SO. induction SO as [|fc fs H HF IH]; auto. cbn [existsb]. replace (2 <? length (fst fc))%nat with false; [|symmetry; apply Nat.ltb_ge; auto].
      cbn [orb]. clear -HF. induction HF as [|fc' fs H HF IH]; auto. cbn [existsb]. rewrite IH. replace (2 <? length (fst fc'))%nat with false; auto. symmetry; apply Nat.ltb_ge; auto. }
  cbn [bind]. unfold sw_numVar. set (s0 := mkSw _ _ _).
  assert (G : forall s, labeling g (sw_label s) -> pair_ok k s -> exists s', foldM (swstep maxi cut g mi) ops s = Ret s' /\ labeling g (sw_label s') /\ pair_ok k s' /\
    (sw_alpha s = 0%nat /\ sw_beta s = 0%nat -> Forall no_infer ops -> sw_alpha s' = 0%nat /\ sw_beta s' = 0%nat)).
  { induction HO as [|o ops Ho HO IH]; intros s HL HP; [exists s; auto|]. cbn [foldM]. destruct o as [stop| |x]; cbn [swstep].
    - destruct (infer_swap_ok maxi cut g k HC W SL SO SS stop mi s HL HP) as (s1 & E & A & B & _). rewrite E. cbn [bind]. destruct (IH s1 A B) as (s' & E' & A' & B' & _). exists s'. split; auto. split; auto. split; auto.
      intros _ F. inversion F as [|? ? N _]. destruct N.
    - cbn [bind]. destruct (IH (sw_reset s)) as (s' & E' & A' & B' & C').
      + unfold sw_reset. cbn [sw_label]. rewrite (labeling_length _ g _ HL). apply zeros_legal.
      + left. auto.
      + exists s'. split; auto. split; auto. split; auto. intros H F. inversion F; subst. apply C'; auto.
    - rewrite (start_ok s x Ho). cbn [bind]. destruct (IH (mkSw x (sw_alpha s) (sw_beta s))) as (s' & E' & A' & B' & C'); auto. exists s'. split; auto. split; auto. split; auto. intros H F. inversion F; subst. apply C'; auto. }
  destruct (G s0) as (s & E & A & B & C); [apply zeros_legal|left; auto|]. exists s. repeat split; try assumption; apply C; auto.
Qed.

(** For every history and every visitor, infer returns, and leaves a labeling that is not worse than the one before. *)
Theorem C41_infer : forall maxNumberOfIterations ops stop, Forall (swlegal g) ops ->
  exists s s', swrun maxi cut g maxNumberOfIterations ops = Ret s /\ sw_infer maxi cut g stop maxNumberOfIterations s = Ret s' /\
    labeling g (sw_arg s) /\ labeling g (sw_arg s') /\ at_least_as_good maxi (energy g (sw_arg s')) (energy g (sw_arg s)).
Proof.
  intros mi ops stop HO. destruct (run_ok mi ops HO) as (s & E & A & B & _). destruct (infer_swap_ok maxi cut g k HC W SL SO SS stop mi s A B) as (s' & E' & A' & B' & C' & _).
  exists s, s'. auto.
Qed.
(** setStartingPoint and reset have the effect their names say. *)
Theorem C41_start : forall maxNumberOfIterations ops x, Forall (swlegal g) ops -> labeling g x ->
  (exists s, swrun maxi cut g maxNumberOfIterations (ops ++ [SStart x]) = Ret s /\ sw_arg s = x) /\
  (exists s, swrun maxi cut g maxNumberOfIterations (ops ++ [SReset]) = Ret s /\ sw_arg s = repeat 0%nat (length (v_labels g))).
Proof.
  intros mi ops x HO Hx. destruct (run_ok mi ops HO) as (s & E & A & _). unfold swrun in *. destruct (sw_new g) as [s0| | |]; try discriminate E. cbn [bind] in *. rewrite !foldM_app, E. cbn [bind foldM swstep].
  rewrite (start_ok s x Hx). cbn [bind]. split; eexists; split; try reflexivity. unfold sw_arg, sw_reset. cbn [sw_label]. rewrite (labeling_length _ g _ A). auto.
Qed.
(** On a new object, infer leaves a labeling that is at least as good as every swap of the labels 0 and 1 in the
    starting point. *)
Theorem C41_first_swap : forall maxNumberOfIterations ops stop, Forall (swlegal g) ops -> Forall no_infer ops -> (1 <= maxNumberOfIterations)%nat ->
  exists s s', swrun maxi cut g maxNumberOfIterations ops = Ret s /\ sw_infer maxi cut g stop maxNumberOfIterations s = Ret s' /\
    forall y, labeling g y -> swap_of 0 1 (sw_arg s) y -> at_least_as_good maxi (energy g (sw_arg s')) (energy g y).
Proof.
  intros mi ops stop HO HN HM. destruct (run_ok mi ops HO) as (s & E & A & B & C). destruct (C HN) as [C1 C2].
  destruct (infer_swap_ok maxi cut g k HC W SL SO SS stop mi s A B) as (s' & E' & A' & B' & D & F). exists s, s'. split; auto. split; auto. intros y Hy SW. unfold sw_arg in *.
  destruct (le_lt_dec 2 k) as [K|K].
  - destruct (Nat.eq_dec (length (v_labels g)) 0) as [Z0|Z0].
    + assert (y = sw_label s). { apply labeling_length in Hy, A. destruct y, (sw_label s); auto; cbn in *; lia. } subst y. auto.
    + assert (PP : (0 < numberOfLabelPairs g)%nat). { unfold numberOfLabelPairs. rewrite (maxState_ok g k SL) by lia. apply Nat.div_str_pos. split; [lia|]. nia. }
      specialize (F ltac:(lia) PP). rewrite C1, C2 in F. unfold increment in F. rewrite (maxState_ok g k SL) in F by lia.
      destruct (Nat.leb_spec k 1); [lia|]. auto.
  - assert (y = sw_label s).
    { pose proof (proj1 (same_labeling k g y SL) Hy) as [L1 F1]. pose proof (proj1 (same_labeling k g _ SL) A) as [L2 F2]. rewrite Forall_forall in F1, F2.
      apply nth_ext with (d := 0%nat) (d' := 0%nat); [congruence|]. intros v Hv. assert (H1 := F1 _ (nth_In y 0%nat Hv)). assert (Hv' : (v < length (sw_label s))%nat) by congruence. assert (H2 := F2 _ (nth_In (sw_label s) 0%nat Hv')). lia. }
    subst y. auto.
Qed.
(** With two labels, the labeling found is globally optimal, whatever the history. *)
Theorem C41_binary : forall maxNumberOfIterations ops stop, k = 2%nat -> Forall (swlegal g) ops -> (1 <= maxNumberOfIterations)%nat ->
  exists s s', swrun maxi cut g maxNumberOfIterations ops = Ret s /\ sw_infer maxi cut g stop maxNumberOfIterations s = Ret s' /\ best_labeling maxi g (sw_arg s').
Proof.
  intros mi ops stop K HO HM. destruct (run_ok mi ops HO) as (s & E & A & B & _).
  destruct (infer_swap_ok maxi cut g k HC W SL SO SS stop mi s A B) as (s' & E' & A' & B' & D & F). exists s, s'. split; auto. split; auto. split; auto. intros y Hy. unfold sw_arg in *.
  destruct (Nat.eq_dec (length (v_labels g)) 0) as [Z0|Z0].
  - assert (y = sw_label s). { apply labeling_length in Hy, A. destruct y, (sw_label s); auto; cbn in *; lia. } subst y. auto.
  - assert (PP : (0 < numberOfLabelPairs g)%nat). { unfold numberOfLabelPairs. rewrite (maxState_ok g k SL) by lia. rewrite K. cbn. lia. }
    specialize (F ltac:(lia) PP). pose proof (increment_ok g k SL (sw_alpha s) (sw_beta s) ltac:(lia) PP B) as INC. destruct (increment g (sw_alpha s) (sw_beta s)) as [a b].
    apply F. assert (a = 0%nat /\ b = 1%nat) as [-> ->] by lia. pose proof (proj1 (same_labeling k g y SL) Hy) as [L1 F1]. pose proof (proj1 (same_labeling k g _ SL) A) as [L2 F2]. rewrite Forall_forall in F1, F2.
    split; [congruence|]. intros v Hv. left. assert (H2 := F2 _ (nth_In (sw_label s) 0%nat Hv)). assert (Hv' : (v < length y)%nat) by congruence. assert (H1 := F1 _ (nth_In y 0%nat Hv')). lia.
Qed.
End Props.
(** Models with larger factors are refused. *)
Theorem C41_refused : forall g, Exists (fun fc : factor => (2 < length (fst fc))%nat) (v_factors g) -> sw_new g = Throw.
Proof.
  intros g H. unfold sw_new. replace (existsb _ _) with true; auto. symmetry. apply existsb_exists. apply Exists_exists in H. destruct H as (fc & H1 & H2). exists fc. split; auto. apply Nat.ltb_lt. auto.
Qed.
Print Assumptions C41_infer.
Print Assumptions C41_start.
Print Assumptions C41_first_swap.
Print Assumptions C41_binary.
Print Assumptions C41_refused.

(** A model that meets the hypotheses: two variables, three labels, unary costs and a Potts factor. *)
Definition swx : gmv Z := mkGmv [3; 3]%nat
  [ ([0%nat], fun l => nth (nth 0 l 0%nat) [0; 10; 2] 0); ([1%nat], fun l => nth (nth 0 l 0%nat) [10; 1; 0] 0);
    ([0; 1]%nat, fun l => if (nth 0 l 0 =? nth 1 l 0)%nat then 0 else 5) ].
Lemma swx_ok : wf_gmv swx /\ same_labels 3 swx /\ second_order swx /\ swap_submodular false 3 swx.
Proof.
  split; [split; cbn; repeat constructor; cbn; lia|]. split; [repeat constructor|]. split; [repeat constructor|].
  repeat constructor; try discriminate. intros _ a b Ha Hb. cbn [snd nth]. destruct a as [|[|[|a]]], b as [|[|[|b]]]; try lia; cbn; lia.
Qed.
Example C41_case : wf_gmv swx /\ same_labels 3 swx /\ second_order swx /\ swap_submodular false 3 swx /\ Forall (swlegal swx) [SStart [0; 1]%nat] /\
  (s <- swrun false try_all swx 1000 [SStart [0; 1]%nat] ;; s <- sw_infer false try_all swx (fun _ => false) 1000 s ;; Ret (sw_arg s)) = Ret [0; 2]%nat.
Proof. destruct swx_ok as (A & B & C & D). repeat (split; [assumption|]). split; [|vm_compute; reflexivity]. repeat constructor; cbn; lia. Qed.
(** The labeling left need not be optimal with respect to swap moves, although neither the visitor nor the iteration
    bound ended the search: the number of unsuccessful moves is not set back after a successful one. *)
Theorem C41_swap_optimal_refuted : exists g k cut ops s s' y, wf_gmv g /\ same_labels k g /\ second_order g /\ swap_submodular false k g /\ min_cut_solver cut /\ Forall (swlegal g) ops /\
  swrun false cut g 1000 ops = Ret s /\ sw_infer false cut g (fun _ => false) 1000 s = Ret s' /\
  swap_of 0 2 (sw_arg s') y /\ energy g y < energy g (sw_arg s').
Proof.
  exists swx, 3%nat, try_all, [SStart [0; 1]%nat], (mkSw [0; 1] 0 0)%nat, (mkSw [0; 2] 0 1)%nat, [2; 2]%nat. destruct swx_ok as (A & B & C & D). repeat (split; [assumption|]). split; [apply C40_solver_exists|].
  split; [repeat constructor; cbn; lia|]. split; [vm_compute; reflexivity|]. split; [vm_compute; reflexivity|]. split; [|vm_compute; reflexivity].
  split; auto. intros [|[|v]] Hv; cbn in *; try lia; auto.
Qed.
(** With different numbers of labels, factors are read at labels they do not have. *)
Theorem C41_unequal_labels_refuted : exists g cut s, wf_gmv g /\ second_order g /\ (forall k, swap_submodular false k g) /\ min_cut_solver cut /\
  swrun false cut g 1000 [] = Ret s /\ sw_infer false cut g (fun _ => false) 1000 s = Undef.
Proof.
  exists (mkGmv [2; 3]%nat [ ([0%nat], fun l => nth (nth 0 l 0%nat) [0; 10] 0); ([1%nat], fun l => nth (nth 0 l 0%nat) [10; 1; 0] 0) ]), try_all, (mkSw [0; 0] 0 0)%nat.
  split; [split; cbn; repeat constructor; cbn; lia|]. split; [repeat constructor|]. split; [repeat constructor; discriminate|]. split; [apply C40_solver_exists|]. split; vm_compute; reflexivity.
Qed.
Print Assumptions C41_swap_optimal_refuted.
Print Assumptions C41_unequal_labels_refuted.
