(** C73: the decompositions of TRWS. *)
From Coq Require Import Permutation Sorting.Sorted.
From Verif Require Import Base GmView GmViewSpec SwSpec TdModel TdSpec TdProofs TdGrid.

Lemma chain_in : forall (T : Type) (g : gmv T) vars facs v f, chain g v vars facs -> In f facs -> exists a b t, nth_error (v_factors g) f = Some ([a; b], t) /\ In a (v :: vars) /\ In b (v :: vars).
Proof.
  intros T g. induction vars as [|w vars IH]; intros [|f' facs] v f C I; cbn in C, I; try contradiction. destruct C as (L & (t & E) & C). destruct I as [<-|I].
  - exists v, w, t. cbn. auto.
  - destruct (IH facs w f C I) as (a & b & t' & A & B & D). exists a, b, t'. split; auto. split; right; auto.
Qed.
(** Chains: if every variable has one factor of its own and the factors have one or two variables, the decomposition consists of the variables that share no factor with another and of ascending
    chains that have every factor of two variables once. *)
Theorem C73_chains : forall (T : Type) (g : gmv T), wf_gmv g -> (forall v, v < length (v_labels g) -> unaries g v = 1) -> (forall fc, In fc (v_factors g) -> 1 <= length (fst fc) <= 2) ->
  exists subs lones chains, td_chains T g = Ret subs /\ subs = map (fun v => ([v], [])) lones ++ chains /\
  StronglySorted lt lones /\ (forall v, In v lones <-> v < length (v_labels g) /\ forall w, ~ touching g v w) /\ Forall (is_chain g) chains /\ Permutation (concat (map snd chains)) (pairwise g) /\
  forall v, v < length (v_labels g) -> exists s, In s subs /\ In v (fst s).
Proof.
  intros T g W U O. destruct (chains_ok T g W (fun fc H => proj1 (O fc H)) U (fun fc H => proj2 (O fc H))) as (lones & chains & E & A & B & C & D). exists (map (fun v => ([v], [])) lones ++ chains), lones, chains. split; auto. split; auto. split; auto. split; auto. split; auto. split; auto.
  intros v Hv. destruct (lonely T g v) eqn:L.
  - exists ([v], []). split; [|left; auto]. apply in_or_app. left. apply in_map_iff. exists v. split; auto. apply B. split; auto. apply lonely_spec; auto.
  - assert (X : exists f vis t, nth_error (v_factors g) f = Some (vis, t) /\ In v vis /\ 1 < length vis).
    { unfold lonely in L. assert (Y : existsb (fun f => match nth_error (v_factors g) f with Some (vis, _) => 1 <? length vis | None => false end) (v_adj T g v) = true).
      { clear - L. induction (v_adj T g v) as [|f l IH]; cbn [forallb existsb] in *; [discriminate|]. destruct (nth_error (v_factors g) f) as [[vis t]|]; cbn [andb orb] in *; auto. destruct (1 <? length vis); cbn [andb orb negb] in *; auto. }
      apply existsb_exists in Y. destruct Y as (f & I & Y). apply IcmProofs.v_adj_spec in I. destruct I as ([vis t] & EF & I). rewrite EF in Y. exists f, vis, t. split; auto. split; auto. apply Nat.ltb_lt. auto. }
    destruct X as (f & vis & t & EF & I & L1). destruct (O _ (nth_error_In _ _ EF)) as [_ L2]. cbn in L2. destruct vis as [|a [|b [|? ?]]]; cbn in L1, L2; try lia.
    assert (PF : In f (concat (map snd chains))). { apply (Permutation_in _ (Permutation_sym D)). unfold pairwise. apply filter_In. rewrite EF. split; auto. apply in_seq. split; [lia|]. apply nth_error_Some. congruence. }
    apply in_concat in PF. destruct PF as (fs & HF & IF). apply in_map_iff in HF. destruct HF as (s & <- & HS). rewrite Forall_forall in C. destruct (C s HS) as (v0 & vars & f0 & facs & -> & CH). destruct (chain_in T g vars (f0 :: facs) v0 f CH IF) as (a' & b' & t' & EF' & IA & IB). rewrite EF in EF'. injection EF' as <- <- _. eexists. split; [apply in_or_app; right; exact HS|]. cbn [fst]. cbn in I. destruct I as [<-|[<-|[]]]; auto.
Qed.
(** Otherwise there is an exception. *)
Theorem C73_chains_throw : forall (T : Type) (g : gmv T), wf_gmv g -> (forall fc, In fc (v_factors g) -> 1 <= length (fst fc)) ->
  ((exists v, v < length (v_labels g) /\ unaries g v <> 1) \/ exists fc, In fc (v_factors g) /\ 2 < length (fst fc)) -> td_chains T g = Throw.
Proof. intros T g W. apply chains_throw; auto. Qed.
(** Edges: one sub-model for every factor of two variables. *)
Theorem C73_edges : forall (T : Type) (g : gmv T), wf_gmv g -> (forall v, v < length (v_labels g) -> unaries g v = 1) -> (forall fc, In fc (v_factors g) -> 1 <= length (fst fc) <= 2) ->
  exists subs, td_edges T g = Ret subs /\ Forall (is_chain g) subs /\ map snd subs = map (fun f => [f]) (pairwise g).
Proof. intros T g W. apply edges_ret; auto. Qed.
Theorem C73_edges_throw : forall (T : Type) (g : gmv T) v, wf_gmv g -> v < length (v_labels g) -> unaries g v <> 1 -> td_edges T g = Throw.
Proof. intros T g v W Hv D. unfold td_edges. rewrite (unaries_throw T g W v Hv D). auto. Qed.
(** Grids: columns, then rows, with the factors between their variables; together they have every factor of the grid once. *)
Theorem C73_grid : forall (T : Type) (g : gmv T) xs ys subs, wf_gmv g -> td_grid T g = Ret (xs, ys, subs) -> length (v_labels g) = xs * ys /\ 2 <= xs /\ 1 <= ys /\ length subs = xs + ys /\
  (forall x, x < xs -> fst (nth x subs ([], [])) = map (fun y => x + xs * y) (seq 0 ys)) /\ (forall y, y < ys -> fst (nth (xs + y) subs ([], [])) = map (fun x => x + xs * y) (seq 0 xs)) /\
  Forall (path g) subs /\ Permutation (concat (map snd subs)) (seq (length (v_labels g)) ((xs - 1) * ys + xs * (ys - 1))).
Proof. intros T g xs ys subs W. apply grid_ret; auto. Qed.
(** Every grid is recognised. *)
Theorem C73_grid_accepted : forall (T : Type) (g : gmv T) xs ys, grid g xs ys -> exists subs, td_grid T g = Ret (xs, ys, subs).
Proof. intros T g xs ys. apply grid_accepted. Qed.
(** ComputeVariableDecomposition() appends to the list of every variable its positions in the sub-models, in order. *)
Theorem C73_variables : forall n subs init, (forall s v, In s subs -> In v (fst s) -> v < n) -> exists out, td_variables n subs init = Ret out /\ length out = n /\
  forall v, v < n -> nth v out [] = nth v init [] ++ filter (fun p => nth (snd p) (nth (fst p) (map fst subs) []) 0 =? v) (positions subs).
Proof. intros n subs init H. destruct (variables_ok nat (mkGmv (repeat 1 n) []) subs init) as (out & A); cbn [v_labels] in *; rewrite repeat_length in *; [auto|]. exists out. auto. Qed.
Print Assumptions C73_chains.
Print Assumptions C73_chains_throw.
Print Assumptions C73_edges.
Print Assumptions C73_edges_throw.
Print Assumptions C73_grid.
Print Assumptions C73_grid_accepted.
Print Assumptions C73_variables.

Definition td_un (n : nat) : list (list nat * (list nat -> nat)) := map (fun v => ([v], fun _ => 0)) (seq 0 n).
Definition td_fac (vis : list nat) : list nat * (list nat -> nat) := (vis, fun _ => 0).
Definition td_gm (n : nat) (l : list (list nat)) : gmv nat := mkGmv (repeat 2 n) (td_un n ++ map td_fac l).
(** EdgeDecomposition accepts a factor of three variables, without the third, *)
Theorem C73_edges_order_refuted : let g := td_gm 3 [[0; 1; 2]] in wf_gmv g /\ (forall v, v < 3 -> unaries g v = 1) /\ td_edges nat g = Ret [([0; 1], [3])] /\ td_chains nat g = Throw.
Proof. split; [split; repeat constructor; cbn; lia|]. split; [intros [|[|[|v]]] H; try reflexivity; lia|]. split; vm_compute; reflexivity. Qed.
(** it has no sub-model for a variable that shares no factor with another, *)
Theorem C73_edges_lone_refuted : let g := td_gm 3 [[0; 1]] in wf_gmv g /\ (forall v, v < 3 -> unaries g v = 1) /\ (forall fc, In fc (v_factors g) -> 1 <= length (fst fc) <= 2) /\ td_edges nat g = Ret [([0; 1], [3])] /\ td_chains nat g = Ret [([2], []); ([0; 1], [3])].
Proof. split; [split; repeat constructor; cbn; lia|]. split; [intros [|[|[|v]]] H; try reflexivity; lia|]. split; [intros fc H; cbn in H; repeat (destruct H as [<-|H]; [cbn; lia|]); contradiction|]. split; vm_compute; reflexivity. Qed.
(** and both read beyond the variables of a constant factor. *)
Theorem C73_constant_refuted : let g := td_gm 2 [[0; 1]; []] in wf_gmv g /\ (forall v, v < 2 -> unaries g v = 1) /\ td_edges nat g = Undef /\ td_chains nat g = Undef.
Proof. split; [split; repeat constructor; cbn; lia|]. split; [intros [|[|v]] H; try reflexivity; lia|]. split; vm_compute; reflexivity. Qed.
(** GridDecomposition accepts a factor that is not part of the grid, and has no sub-model for it, *)
Theorem C73_grid_extra_refuted : let g := td_gm 4 [[0; 1]; [0; 2]; [1; 3]; [2; 3]; [0; 3]] in wf_gmv g /\ pairwise g = [4; 5; 6; 7; 8] /\ td_grid nat g = Ret (2, 2, [([0; 2], [5]); ([1; 3], [6]); ([0; 1], [4]); ([2; 3], [7])]).
Proof. split; [split; repeat constructor; cbn; lia|]. split; vm_compute; reflexivity. Qed.
(** and a factor of three variables where it expects one of two; *)
Theorem C73_grid_order_refuted : let g := td_gm 4 [[0; 1]; [0; 2]; [0; 1; 3]; [2; 3]] in wf_gmv g /\ exists subs, td_grid nat g = Ret (2, 2, subs).
Proof. split; [split; repeat constructor; cbn; lia|]. eexists. vm_compute. reflexivity. Qed.
(** it reads beyond the factors if there are less than in a grid, *)
Theorem C73_grid_missing_refuted : let g := td_gm 4 [[0; 2]] in wf_gmv g /\ td_grid nat g = Undef.
Proof. split; [split; repeat constructor; cbn; lia|]. vm_compute. reflexivity. Qed.
(** and uses sizes that are not set if there is no factor of two variables. *)
Theorem C73_grid_none_refuted : let g := td_gm 3 [] in wf_gmv g /\ td_grid nat g = Undef.
Proof. split; [split; repeat constructor; cbn; lia|]. vm_compute. reflexivity. Qed.
Print Assumptions C73_edges_order_refuted.
Print Assumptions C73_edges_lone_refuted.
Print Assumptions C73_constant_refuted.
Print Assumptions C73_grid_extra_refuted.
Print Assumptions C73_grid_order_refuted.
Print Assumptions C73_grid_missing_refuted.
Print Assumptions C73_grid_none_refuted.

Example C73_ex_chains : let g := td_gm 5 [[0; 1]; [1; 2]; [0; 2]; [2; 3]] in wf_gmv g /\ (forall v, v < 5 -> unaries g v = 1) /\ (forall fc, In fc (v_factors g) -> 1 <= length (fst fc) <= 2) /\
  td_chains nat g = Ret [([4], []); ([0; 1; 2; 3], [5; 6; 8]); ([0; 2], [7])] /\ td_edges nat g = Ret [([0; 1], [5]); ([1; 2], [6]); ([0; 2], [7]); ([2; 3], [8])] /\
  td_variables 5 [([4], []); ([0; 1; 2; 3], [5; 6; 8]); ([0; 2], [7])] [] = Ret [[(1, 0); (2, 0)]; [(1, 1)]; [(1, 2); (2, 1)]; [(1, 3)]; [(0, 0)]].
Proof. split; [split; repeat constructor; cbn; lia|]. split; [intros [|[|[|[|[|v]]]]] H; try reflexivity; lia|]. split; [intros fc H; cbn in H; repeat (destruct H as [<-|H]; [cbn; lia|]); contradiction|]. repeat split; vm_compute; reflexivity. Qed.
Example C73_ex_throw : let g := td_gm 2 [[0; 1]; [0]] in wf_gmv g /\ unaries g 0 = 2 /\ td_chains nat g = Throw /\ td_edges nat g = Throw.
Proof. split; [split; repeat constructor; cbn; lia|]. repeat split; vm_compute; reflexivity. Qed.
Definition td_gm23 : gmv nat := td_gm 6 [[0; 1]; [0; 3]; [1; 2]; [1; 4]; [2; 5]; [3; 4]; [4; 5]].
Example C73_ex_grid : wf_gmv td_gm23 /\ grid td_gm23 3 2 /\ td_grid nat td_gm23 = Ret (3, 2, [([0; 3], [7]); ([1; 4], [9]); ([2; 5], [10]); ([0; 1; 2], [6; 8]); ([3; 4; 5], [11; 12])]).
Proof.
  split; [split; repeat constructor; cbn; lia|]. split; [|vm_compute; reflexivity]. split; [reflexivity|]. split; [lia|]. split; [lia|]. split; [reflexivity|].
  intros x y Hx Hy. assert (X : x = 0 \/ x = 1 \/ x = 2) by lia. assert (Y : y = 0 \/ y = 1) by lia. destruct X as [->|[->| ->]]; destruct Y as [->| ->]; (split; [intros H; try lia; eexists; reflexivity|intros H; try lia; eexists; reflexivity]).
Qed.
