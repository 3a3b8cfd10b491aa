(** C40: GraphCut finds an optimal labeling of a submodular binary model, given a correct max-flow library. *)
From Verif Require Import Base Values GmView GmViewSpec ShapeSpec GmViewProofs GraphCutModel GraphCutSpec GraphCutProofs.
Local Open Scope Z_scope.

(** Correct solvers exist: here is one that tries all cuts.  So the assumption [min_cut_solver] is not void. *)
Fixpoint all_cuts (n : nat) : list (list bool) := match n with 0%nat => [[]] | S n => flat_map (fun l => [false :: l; true :: l]) (all_cuts n) end.
Definition try_all (nodes : nat) (edges : list edge) : list bool :=
  fold_left (fun best tau => if cut_cost tau edges <? cut_cost best edges then tau else best) (all_cuts nodes) (repeat false nodes).
Lemma all_cuts_iff : forall n l, In l (all_cuts n) <-> length l = n.
Proof.
  induction n as [|n IH]; intros l; cbn [all_cuts].
  - split; [intros [<-|[]]; auto|]. destruct l; [left; auto|discriminate].
  - rewrite in_flat_map. split.
    + intros (a & Ha & H). apply IH in Ha. destruct H as [<-|[<-|[]]]; cbn; lia.
    + destruct l as [|b l]; [discriminate|]. cbn. intros H. exists l. split; [apply IH; lia|]. destruct b; auto.
Qed.
Theorem C40_solver_exists : min_cut_solver try_all.
Proof.
  intros nodes edges _ _. unfold try_all.
  assert (G : forall L b, length b = nodes -> (forall l, In l L -> length l = nodes) ->
    let r := fold_left (fun best tau => if cut_cost tau edges <? cut_cost best edges then tau else best) L b in
    length r = nodes /\ cut_cost r edges <= cut_cost b edges /\ forall l, In l L -> cut_cost r edges <= cut_cost l edges).
  { induction L as [|a L IH]; intros b Hb HL; cbn [fold_left]; [split; auto; split; [lia|intros l []]|].
    destruct (Z.ltb_spec (cut_cost a edges) (cut_cost b edges)) as [H|H].
    - destruct (IH a (HL a (or_introl eq_refl)) (fun l Hl => HL l (or_intror Hl))) as (A & B & C). split; auto. split; [lia|]. intros l [<-|Hl]; auto.
    - destruct (IH b Hb (fun l Hl => HL l (or_intror Hl))) as (A & B & C). split; auto. split; auto. intros l [<-|Hl]; [lia|auto]. }
  destruct (G (all_cuts nodes) (repeat false nodes) (repeat_length _ _) (fun l Hl => proj1 (all_cuts_iff _ _) Hl)) as (A & _ & C).
  split; auto. intros tau Ht. apply C. apply all_cuts_iff. auto.
Qed.
Print Assumptions C40_solver_exists.

Lemma binary_labeling : forall n fs x, labeling (mkGmv (repeat 2%nat n) fs : gmv Z) x <-> length x = n /\ Forall (fun l => (l < 2)%nat) x.
Proof.
  intros n fs x. unfold labeling, in_shape. cbn [v_labels]. split.
  - intros H. split.
    + rewrite <- (repeat_length 2%nat n). clear -H. induction H; cbn; auto.
    + remember (repeat 2%nat n) as r. revert n Heqr. induction H as [|l k x r Hl H IH]; intros n E; constructor; destruct n; try discriminate; injection E as E1 E2; subst; auto. eapply IH; eauto.
  - intros [H1 H2]. subst n. induction H2; cbn; constructor; auto.
Qed.
Lemma labels_repeat : forall g : gmv Z, Forall (fun k => k = 2%nat) (v_labels g) -> g = mkGmv (repeat 2%nat (length (v_labels g))) (v_factors g).
Proof.
  intros [ls fs] H. cbn [v_labels v_factors] in *. f_equal. induction H as [|k ls Hk H IH]; cbn; auto. subst k. f_equal. auto.
Qed.

(** Factors added one by one, after construction with a number of variables.  Whatever minimum-cut solver is used: arg
    after infer is a labeling, and no other labeling is better by more than the total excess of the factors over
    submodularity, which may be at most the tolerance each. *)
Theorem C40_tolerance : forall maxi cut n numFacDim scale tolerance fs, min_cut_solver cut -> 0 < scale -> nth 3 numFacDim 0%nat = 0%nat -> small_factors n fs ->
  Forall (fun fc => excess maxi fc <= Z.abs tolerance) fs ->
  exists s x, foldM (gc_addFactor maxi) fs (gc_create n numFacDim scale tolerance) = Ret s /\ gc_arg (gc_infer cut s) = Ret x /\
    let g := mkGmv (repeat 2%nat n) fs in labeling g x /\
    forall y, labeling g y -> if maxi then energy g y <= energy g x + total_excess maxi fs else energy g x <= energy g y + total_excess maxi fs.
Proof.
  intros maxi cut n dims scale tol fs HC Hs HD HF HE. destruct (create_ok n dims scale tol HD) as (I0 & P0 & S0 & T0).
  destruct (addFactors_ok maxi n fs (gc_create n dims scale tol) I0) as (s & E & I & [S1 S2] & k & P); [lia|lia|auto|rewrite T0; auto|].
  destruct (infer_ok maxi cut n s fs k HC I ltac:(lia) HF) as (EA & LX & BX & OPT).
  { intros sg. destruct (P sg) as (e & He & E1). exists e. split; auto. rewrite E1, P0, S1. lia. }
  exists s. eexists. split; [exact E|]. split; [exact EA|]. cbv zeta. split; [apply binary_labeling; auto|].
  intros y Hy. apply binary_labeling in Hy. destruct Hy as [LY BY]. specialize (OPT y LY BY). rewrite !energy_sum. cbn [v_factors]. unfold sgn in OPT. destruct maxi; lia.
Qed.
(** In particular the labeling is optimal if all factors are submodular, for every tolerance. *)
Theorem C40_factors : forall maxi cut n numFacDim scale tolerance fs, min_cut_solver cut -> 0 < scale -> nth 3 numFacDim 0%nat = 0%nat -> small_factors n fs -> submodular maxi fs ->
  exists s x, foldM (gc_addFactor maxi) fs (gc_create n numFacDim scale tolerance) = Ret s /\ gc_arg (gc_infer cut s) = Ret x /\ best_labeling maxi (mkGmv (repeat 2%nat n) fs) x.
Proof.
  intros maxi cut n dims scale tol fs HC Hs HD HF HS. destruct (C40_tolerance maxi cut n dims scale tol fs HC Hs HD HF) as (s & x & E1 & E2 & L & B).
  { eapply Forall_impl; [|exact HS]. cbn. intros fc H. rewrite H. lia. }
  assert (Z : total_excess maxi fs = 0). { clear -HS. induction HS as [|fc fs H HS IH]; cbn; lia. }
  exists s, x. split; auto. split; auto. split; auto. intros y Hy. specialize (B y Hy). rewrite Z in B. unfold at_least_as_good. destruct maxi; lia.
Qed.
(** The same for construction from a model. *)
Theorem C40_model : forall maxi cut scale tolerance (g : gmv Z), min_cut_solver cut -> 0 < scale -> wf_gmv g -> Forall (fun k => k = 2%nat) (v_labels g) ->
  Forall (fun fc => (length (fst fc) <= 2)%nat) (v_factors g) -> submodular maxi (v_factors g) ->
  exists s x, gc_new maxi g scale tolerance = Ret s /\ gc_arg s = Ret (repeat 0%nat (length (v_labels g))) /\ gc_arg (gc_infer cut s) = Ret x /\ best_labeling maxi g x.
Proof.
  intros maxi cut scale tol g HC Hs W HB HO HS.
  assert (HF : small_factors (length (v_labels g)) (v_factors g)).
  { destruct W as [W _]. unfold small_factors. rewrite Forall_forall in *. intros fc H. split; auto. apply W. auto. }
  destruct (C40_factors maxi cut (length (v_labels g)) [0; 0; 0; 0]%nat scale tol (v_factors g) HC Hs eq_refl HF HS) as (s & x & E1 & E2 & B).
  exists s, x. rewrite (labels_repeat g HB). cbn [v_labels]. rewrite repeat_length. split; [|split; [|split; auto]].
  - unfold gc_new. cbn [v_labels v_factors]. rewrite repeat_length.
    replace (existsb (fun k => negb (k =? 2)%nat) (repeat 2%nat (length (v_labels g)))) with false by (clear; induction (length (v_labels g)); cbn; auto).
    replace (existsb (fun fc : factor => (3 <? length (fst fc))%nat) (v_factors g)) with false.
    2:{ symmetry. clear -HO. induction HO as [|fc fs H HO IH]; auto. cbn [existsb]. rewrite IH. replace (3 <? length (fst fc))%nat with false; auto. symmetry. apply Nat.ltb_ge. lia. }
    replace (length (filter (fun fc : factor => (length (fst fc) =? 3)%nat) (v_factors g))) with 0%nat; auto.
    clear -HO. induction HO as [|fc fs H HO IH]; auto. cbn [filter]. replace (length (fst fc) =? 3)%nat with false; auto. symmetry. apply Nat.eqb_neq. lia.
  - destruct (create_ok (length (v_labels g)) [0; 0; 0; 0]%nat scale tol eq_refl) as (I0 & _). 
    assert (K : forall fs s0 s1, Forall (fun fc : factor => (length (fst fc) <= 2)%nat) fs -> foldM (gc_addFactor maxi) fs s0 = Ret s1 -> gc_numVar s1 = gc_numVar s0 /\ gc_done s1 = gc_done s0).
    { clear. intros fs s0 s1 H. revert s0. induction H as [|fc fs H HO IH]; intros s0 E; cbn [foldM] in E; [injection E as <-; auto|].
      apply bind_inv in E. destruct E as (s2 & E1 & E2). specialize (IH s2 E2). destruct IH as [-> ->]. clear E2 HO.
      assert (AE : forall s v w c s', addEdgeCapacity s v w c = Ret s' -> gc_numVar s' = gc_numVar s /\ gc_done s' = gc_done s).
      { intros s v w c s' X. unfold addEdgeCapacity in X. destruct (v =? 0)%nat, (w =? 1)%nat, (w <? 2)%nat, (v <? 2)%nat, ((v <? gc_nodes s) && (w <? gc_nodes s))%nat; try discriminate;
          try (apply bind_inv in X; destruct X as (? & _ & X); apply bind_inv in X; destruct X as (? & _ & X)); injection X as <-; auto. }
      destruct fc as [[|v [|w [|z vis]]] f]; unfold gc_addFactor in E1; cbn [fst snd] in *; [injection E1 as <-; auto| | |cbn in H; lia].
      - unfold addUnaryFactor in E1. destruct maxi; destruct (_ <=? _); eauto.
      - unfold addPairFactor in E1. destruct maxi; apply bind_inv in E1; destruct E1 as (sa & X1 & E1); apply bind_inv in E1; destruct E1 as (sb & X2 & E1); apply AE in E1; destruct E1 as [-> ->].
        all: assert (Y : gc_numVar sb = gc_numVar sa /\ gc_done sb = gc_done sa) by (repeat (destruct (_ <? _) in X2); eauto; injection X2 as <-; auto).
        all: assert (Y' : gc_numVar sa = gc_numVar s0 /\ gc_done sa = gc_done s0) by (repeat (destruct (_ <? _) in X1); eauto; injection X1 as <-; auto).
        all: destruct Y, Y'; split; congruence. }
    destruct (K _ _ _ HO E1) as [N D]. unfold gc_arg. rewrite D, N. auto.
Qed.
(** Models with other variables or larger factors are refused; third order factors are refused for maximization. *)
Lemma capacity_total : forall n s v w c, length (gc_s s) = n -> length (gc_t s) = n -> gc_nodes s = (2 + n)%nat -> (v = 0 /\ 2 <= w < 2 + n \/ 2 <= v < 2 + n /\ 1 <= w < 2 + n)%nat ->
  exists s', addEdgeCapacity s v w c = Ret s' /\ length (gc_s s') = n /\ length (gc_t s') = n /\ gc_nodes s' = (2 + n)%nat.
Proof.
  intros n s v w c H1 H2 H3 H. unfold addEdgeCapacity. destruct (Nat.eqb_spec v 0) as [->|V].
  - destruct (Nat.ltb_spec w 2); [lia|]. rewrite (rd_nth Z (gc_s s) (w - 2) 0) by lia. cbn [bind]. rewrite wr_Ret by lia. cbn [bind]. eexists. split; [reflexivity|]. cbn. rewrite length_upd. auto.
  - destruct (Nat.eqb_spec w 1) as [->|W].
    + destruct (Nat.ltb_spec v 2); [lia|]. rewrite (rd_nth Z (gc_t s) (v - 2) 0) by lia. cbn [bind]. rewrite wr_Ret by lia. cbn [bind]. eexists. split; [reflexivity|]. cbn. rewrite length_upd. auto.
    + destruct (Nat.ltb_spec v (gc_nodes s)); [|lia]. destruct (Nat.ltb_spec w (gc_nodes s)); [|lia]. cbn [andb]. eexists. split; [reflexivity|]. auto.
Qed.
Lemma third_throws : forall n fs s, length (gc_s s) = n -> length (gc_t s) = n -> gc_nodes s = (2 + n)%nat -> Forall (fun fc : factor => Forall (fun v => (v < n)%nat) (fst fc)) fs ->
  Exists (fun fc : factor => (2 < length (fst fc))%nat) fs -> foldM (gc_addFactor true) fs s = Throw.
Proof.
  intros n fs. induction fs as [|fc fs IH]; intros s H1 H2 H3 HF HX; [inversion HX|]. inversion HF as [|? ? F1 F2]; subst. cbn [foldM].
  destruct (le_lt_dec (length (fst fc)) 2) as [L|L].
  - assert (X : exists s', gc_addFactor true s fc = Ret s' /\ length (gc_s s') = length (gc_s s) /\ length (gc_t s') = length (gc_s s) /\ gc_nodes s' = (2 + length (gc_s s))%nat).
    { unfold gc_addFactor. destruct fc as [[|v [|w [|z vis]]] f]; cbn [fst snd] in *; [eauto| | |cbn in L; lia].
      - inversion F1; subst. unfold addUnaryFactor. destruct (_ <=? _); apply capacity_total; auto; lia.
      - inversion F1 as [|? ? V F1']; inversion F1' as [|? ? W _]; subst. unfold addPairFactor.
        assert (Y : forall (b1 b2 : bool) s0 x c1 c2, length (gc_s s0) = length (gc_s s) -> length (gc_t s0) = length (gc_s s) -> gc_nodes s0 = (2 + length (gc_s s))%nat -> (x < length (gc_s s))%nat ->
          exists s', (if b1 then addEdgeCapacity s0 0 (x + 2) c1 else if b2 then addEdgeCapacity s0 (x + 2) 1 c2 else Ret s0) = Ret s' /\ length (gc_s s') = length (gc_s s) /\ length (gc_t s') = length (gc_s s) /\ gc_nodes s' = (2 + length (gc_s s))%nat).
        { intros b1 b2 s0 x c1 c2 A B C D. destruct b1; [apply capacity_total; auto; lia|]. destruct b2; [apply capacity_total; auto; lia|]. eauto. }
        edestruct (Y (f [1; 0]%nat <? f [0; 0]%nat) (f [0; 0]%nat <? f [1; 0]%nat) s v) as (s1 & E1 & A1 & A2 & A3); [auto..|]. rewrite E1. cbn [bind].
        edestruct (Y (f [1; 1]%nat <? f [1; 0]%nat) (f [1; 0]%nat <? f [1; 1]%nat) s1 w) as (s2 & E2 & B1 & B2 & B3); [auto..|]. rewrite E2. cbn [bind].
        apply capacity_total; auto; lia. }
    destruct X as (s' & -> & A & B & C). cbn [bind]. apply IH; auto. inversion HX; subst; auto. lia.
  - destruct fc as [[|v [|w [|z [|]]]] f]; cbn in L; try lia; auto.
Qed.
Theorem C40_refused : forall (maxi : bool) scale tolerance (g : gmv Z), wf_gmv g ->
  Exists (fun k => k <> 2%nat) (v_labels g) \/ Exists (fun fc => ((if maxi then 2 else 3) < length (fst fc))%nat) (v_factors g) -> gc_new maxi g scale tolerance = Throw.
Proof.
  intros maxi scale tol g W H. unfold gc_new. destruct (existsb (fun k => negb (k =? 2)%nat) (v_labels g)) eqn:X; auto. destruct H as [H|H].
  - apply Exists_exists in H. destruct H as (k & Hk & N). rewrite <- not_true_iff_false in X. destruct X. apply existsb_exists. exists k. split; auto. apply negb_true_iff, Nat.eqb_neq. auto.
  - destruct (existsb (fun fc : factor => (3 <? length (fst fc))%nat) (v_factors g)) eqn:Y; auto. destruct maxi.
    + apply third_throws with (n := (length (v_labels g) + length (filter (fun fc : factor => (length (fst fc) =? 3)%nat) (v_factors g)))%nat); cbn [gc_create gc_s gc_t gc_nodes nth]; try apply repeat_length; auto.
      destruct W as [W _]. rewrite Forall_forall in *. intros fc Hf. destruct (W fc Hf) as [_ W']. eapply Forall_impl; [|exact W']. cbn. lia.
    + apply Exists_exists in H. destruct H as (fc & Hf & N). rewrite <- not_true_iff_false in Y. destruct Y. apply existsb_exists. exists fc. split; auto. apply Nat.ltb_lt. auto.
Qed.
Print Assumptions C40_tolerance.
Print Assumptions C40_factors.
Print Assumptions C40_model.
Print Assumptions C40_refused.

(** A model that meets the hypotheses, and what is found with the solver above. *)
Definition gcx : gmv Z := mkGmv [2; 2; 2]%nat
  [ ([0%nat], fun l => if (nth 0 l 0 =? 0)%nat then 0 else 3); ([1%nat], fun l => if (nth 0 l 0 =? 0)%nat then 4 else 0);
    ([0; 1]%nat, fun l => if (nth 0 l 0 =? nth 1 l 0)%nat then 0 else 5); ([1; 2]%nat, fun l => if (nth 0 l 0 =? nth 1 l 0)%nat then 0 else 2); ([], fun _ => 7) ].
Example C40_case : wf_gmv gcx /\ Forall (fun k => k = 2%nat) (v_labels gcx) /\ Forall (fun fc => (length (fst fc) <= 2)%nat) (v_factors gcx) /\ submodular false (v_factors gcx) /\
  (s <- gc_new false gcx 2 0 ;; gc_arg (gc_infer try_all s)) = Ret [1; 1; 1]%nat /\ energy gcx [1; 1; 1]%nat = 10.
Proof.
  split; [split; cbn; repeat constructor; cbn; lia|]. split; [repeat constructor|]. split; [repeat constructor; cbn; lia|]. split; [repeat constructor|]. vm_compute. auto.
Qed.

(** A second infer adds the terminal edges again and may find a worse labeling, for every solver. *)
Theorem C40_second_infer_refuted : exists g s, wf_gmv g /\ Forall (fun k => k = 2%nat) (v_labels g) /\ Forall (fun fc => (length (fst fc) <= 2)%nat) (v_factors g) /\
  submodular false (v_factors g) /\ gc_new false g 1 0 = Ret s /\
  forall cut, min_cut_solver cut -> exists x, gc_arg (gc_infer cut (gc_infer cut s)) = Ret x /\ ~ best_labeling false g x.
Proof.
  exists (mkGmv [2; 2]%nat [ ([0%nat], fun l => if (nth 0 l 0 =? 0)%nat then 0 else 3); ([1%nat], fun l => if (nth 0 l 0 =? 0)%nat then 4 else 0);
    ([0; 1]%nat, fun l => if (nth 0 l 0 =? nth 1 l 0)%nat then 0 else 5) ]).
  eexists. split; [split; cbn; repeat constructor; cbn; lia|]. split; [repeat constructor|]. split; [repeat constructor; cbn; lia|]. split; [repeat constructor|].
  split; [vm_compute; reflexivity|]. intros cut HC. unfold gc_infer. cbn [gc_nodes gc_edges gc_s gc_t gc_scale gc_tol gc_numVar gc_dim3 gc_triples].
  unfold terminal_edges. cbn [length seq flat_map nth app gc_s gc_t Nat.add].
  match goal with |- context [mkGc _ _ _ _ _ _ _ _ _ (cut 4%nat ?e) true] => destruct (HC 4%nat e) as [HL HM]; [lia|repeat constructor; lia|]; set (sg := cut 4%nat e) in * end.
  clearbody sg. destruct sg as [|a [|b [|c [|d [|]]]]]; try discriminate HL. specialize (HM [false; false; false; true] eq_refl).
  eexists. split; [vm_compute; reflexivity|]. intros [_ B]. specialize (B [1; 1]%nat ltac:(repeat constructor)). cbn in HM. unfold at_least_as_good in B.
  destruct c, d; cbn in HM, B; try lia.
Qed.
(** Third order factors: even a factor that depends on its last variable only is not treated correctly, for every solver. *)
Theorem C40_third_order_refuted : exists g s, wf_gmv g /\ Forall (fun k => k = 2%nat) (v_labels g) /\ gc_new false g 1 0 = Ret s /\
  v_factors g = [ ([0; 1; 2]%nat, fun l => if (nth 2 l 0 =? 0)%nat then 0 else -5); ([2%nat], fun l => if (nth 0 l 0 =? 0)%nat then 0 else 1) ] /\
  forall cut, min_cut_solver cut -> exists x, gc_arg (gc_infer cut s) = Ret x /\ ~ best_labeling false g x.
Proof.
  exists (mkGmv [2; 2; 2]%nat [ ([0; 1; 2]%nat, fun l => if (nth 2 l 0 =? 0)%nat then 0 else -5); ([2%nat], fun l => if (nth 0 l 0 =? 0)%nat then 0 else 1) ]).
  eexists. split; [split; cbn; repeat constructor; cbn; lia|]. split; [repeat constructor|].
  split; [vm_compute; reflexivity|]. split; [reflexivity|]. intros cut HC. unfold gc_infer. cbn [gc_nodes gc_edges gc_s gc_t gc_scale gc_tol gc_numVar gc_dim3 gc_triples].
  unfold terminal_edges. cbn [length seq flat_map nth app gc_s gc_t Nat.add].
  match goal with |- context [mkGc _ _ _ _ _ _ _ _ _ (cut 6%nat ?e) true] => destruct (HC 6%nat e) as [HL HM]; [lia|repeat constructor; lia|]; set (sg := cut 6%nat e) in * end.
  clearbody sg. destruct sg as [|a [|b [|c [|d [|e [|f [|]]]]]]]; try discriminate HL. specialize (HM [false; false; false; false; false; false] eq_refl).
  eexists. split; [vm_compute; reflexivity|]. intros [_ B]. cbn in HM. unfold at_least_as_good in B.
  destruct e; [cbn in HM; destruct c, d, f; cbn in HM; lia|]. specialize (B [if c then 1 else 0; if d then 1 else 0; 1]%nat). 
  destruct c, d; cbn in B; specialize (B ltac:(repeat constructor)); lia.
Qed.
Print Assumptions C40_second_infer_refuted.
Print Assumptions C40_third_order_refuted.
