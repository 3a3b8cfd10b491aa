(** SelfFusion. *)
From Coq Require Import ZArith.
From Verif Require Import Base Values GmView GmViewSpec ShapeSpec GmViewProofs GmViewProps OperationsModel FuseSpec FuseMoves FmModel FmSpec FbiSpec SfModel SfSpec SfProofs.
From Verif Require RedInfer.
Open Scope nat_scope.

Section Props.
Variables (T : Type) (fin : T -> Prop) (eqv : T -> T -> bool) (OP : oper T) (ACC : accum T) (g : gmv T) (solvers : hlsolvers T) (kind : fusionSolver) (d : nat) (p : sfparam) (stop : nat -> bool).
Hypothesis OL : op_laws fin OP.
Hypothesis AL : acc_laws fin OP ACC.
Hypothesis AS : acc_select fin ACC.
Hypothesis W : wf_gmv g.
Hypothesis FG : fin_gmv fin g.
Hypothesis HD : order_at_most d g.
Hypothesis SO : solvers_ok d solvers kind.
Hypothesis FN : 0 < sp_fuseNth p.

(** C65.  Whatever labelings the inference shows, infer() succeeds and arg() is a labeling; [k] is the number of calls of the visitor; the
    inference is stopped early only if the visitor says so or there was no progress in numStopIt calls. *)
Theorem C65_runs : forall best shows, labeling g best -> truthful OP g shows ->
  exists s k x, sf_infer T eqv OP ACC g solvers kind p stop best shows = Ret (s, k) /\ sf_arg T g s = Ret x /\ labeling g x /\
    k <= length shows /\ (shows <> [] -> 0 < k) /\ (k < length shows -> sp_numStopIt p <= sf_noProgress s \/ exists c, stop c = true).
Proof.
  intros best shows L TR. destruct (visits_ok T fin eqv OP ACC g solvers kind d p stop OL AL AS W FG HD SO FN shows [] _ (start_good T fin OP ACC g p stop best L) TR) as (s & k & E & K & G & K2 & K3).
  exists s, k, (sf_best s). cbn [app length] in *. split; [exact E|]. split; [apply (arg_ok T g p FN); apply G|]. split; [apply G|]. split; [lia|]. split; [exact K2|]. intros H. specialize (K3 H). unfold sf_goes_on in K3. apply andb_false_iff in K3. destruct K3 as [K3|K3].
  - left. apply negb_false_iff, Nat.leb_le in K3. exact K3.
  - right. apply negb_false_iff in K3. clear - E K3.
    assert (X : forall l s0 k0 s k, sf_visits T eqv OP ACC g solvers kind p stop s0 l k0 = Ret (s, k) -> sf_flag s = true -> (sf_flag s0 = true -> exists c, stop c = true) -> exists c, stop c = true).
    { induction l as [|[[x v] b] l IH]; intros s0 k0 s' k' E' F H; cbn [sf_visits] in E'; [inversion E'; subst; auto|].
      destruct (sf_visit T eqv OP ACC g solvers kind p stop s0 (x, v, b)) as [s1| | |] eqn:V; try discriminate E'. cbn [bind] in E'.
      assert (H1 : sf_flag s1 = true -> exists c, stop c = true).
      { unfold sf_visit in V. destruct (sf_iter s0 =? 0).
        - destruct (a_bop ACC v (sf_val s0)); [destruct (copy_into (sf_out s0) x); try discriminate V|]; cbn [bind] in V; injection V as <-; cbn [sf_flag]; eauto.
        - destruct (sp_fuseNth p =? 0); [discriminate V|]. destruct (_ =? 0); [|cbn [bind] in V; injection V as <-; cbn [sf_flag]; exact H].
          destruct (hl_fuse _ _ _ _ _ _ _ _ _ _ _ _) as [[[w|] z]| | |]; try discriminate V; cbn [bind] in V; [destruct (copy_into z (sf_best s0)); try discriminate V; cbn [bind] in V|]; injection V as <-; cbn [sf_flag]; eauto. }
      destruct (sf_goes_on T p s1); [eapply IH; eauto|]. inversion E'; subst. apply H1. exact F. }
    eapply X; [exact E|exact K3|]. cbn [sf_flag]. eauto.
Qed.
(** value() is never worse than the value of the first labeling shown. *)
Theorem C65_first : forall best shows s k sh, labeling g best -> truthful OP g shows -> sf_infer T eqv OP ACC g solvers kind p stop best shows = Ret (s, k) ->
  nth_error shows 0 = Some sh -> a_bop ACC (total OP g (fst (fst sh))) (sf_value s) = false.
Proof.
  intros best shows s k sh L TR R H. destruct (visits_ok T fin eqv OP ACC g solvers kind d p stop OL AL AS W FG HD SO FN shows [] _ (start_good T fin OP ACC g p stop best L) TR) as (s' & k' & E & K & G & K2 & _).
  cbn [app length] in *. unfold sf_infer in R. rewrite E in R. injection R as -> ->. destruct G as (_ & _ & _ & _ & _ & _ & G). apply G. destruct shows as [|a shows]; [discriminate H|]. assert (0 < k) by (apply K2; discriminate). destruct k; [lia|]. exact H.
Qed.
(** If the first labeling shown is all zero: value() is the value of arg(), and arg() is as good as all labelings used. *)
Theorem C65_zero_start : forall best shows s k sh x, labeling g best -> truthful OP g shows -> sf_infer T eqv OP ACC g solvers kind p stop best shows = Ret (s, k) ->
  nth_error shows 0 = Some sh -> fst (fst sh) = repeat 0 (length (v_labels g)) -> sf_arg T g s = Ret x ->
  sf_value s = total OP g x /\ forall y, used (sp_fuseNth p) k shows y -> as_good OP ACC g x y.
Proof.
  intros best shows s k sh x L TR R H Z A. destruct (visits_ok T fin eqv OP ACC g solvers kind d p stop OL AL AS W FG HD SO FN shows [] _ (start_good T fin OP ACC g p stop best L) TR) as (s' & k' & E & K & G & K2 & _).
  cbn [app length] in *. unfold sf_infer in R. rewrite E in R. injection R as -> ->. rewrite (arg_ok T g p FN) in A by apply G. injection A as <-. destruct G as (_ & _ & _ & _ & _ & _ & G).
  assert (H' : nth_error (firstn k shows) 0 = Some sh). { destruct shows as [|a shows]; [discriminate H|]. assert (0 < k) by (apply K2; discriminate). destruct k; [lia|]. exact H. }
  destruct (G sh H') as [_ G']. destruct (G' Z) as [S1 S2]. split; [exact S1|]. intros y (j & sh' & Hj & M & N & <-). unfold as_good. rewrite <- S1. apply (S2 j sh'); [|exact M].
  clear - Hj N. revert k shows Hj N. induction j as [|j IH]; intros [|k] [|a shows] Hj N; try lia; try discriminate N; cbn in *; auto. apply IH; [lia|exact N].
Qed.
End Props.
Print Assumptions C65_runs.
Print Assumptions C65_first.
Print Assumptions C65_zero_start.

(** ** Examples *)
(** The solver of the binary models that tries all labelings. *)
Definition try_labels : bsolver ext := fun sub _ =>
  Ret (Some (fold_left (fun b y => if a_bop MinimizerE (total AdderE sub y) (total AdderE sub b) then y else b) (RedInfer.labelings (v_labels sub)) (repeat 0 (length (v_labels sub))))).
Lemma try_labels_ok : forall d, returns_labelings d try_labels.
Proof.
  intros d sub start (W & _) _. eexists. split; [reflexivity|].
  assert (X : forall l b, labeling sub b -> Forall (labeling sub) l -> labeling sub (fold_left (fun b y => if a_bop MinimizerE (total AdderE sub y) (total AdderE sub b) then y else b) l b)).
  { induction l as [|y l IH]; intros b LB F; cbn [fold_left]; [exact LB|]. inversion F; subst. apply IH; [destruct (a_bop _ _ _); assumption|assumption]. }
  apply X; [apply zeros_ok; exact W|]. apply Forall_forall. intros y H. apply RedInfer.labelings_In. exact H.
Qed.
Definition sf_solvers : hlsolvers ext := mkHl (fun _ _ _ _ => None) try_labels try_labels try_labels.
Lemma sf_solvers_ok : forall d kind, solvers_ok d sf_solvers kind.
Proof. intros d kind. left. destruct kind; apply try_labels_ok. Qed.
Definition ext_eqb (a b : ext) : bool := match a, b with Fin x, Fin y => Z.eqb x y | PInf, PInf | NInf, NInf => true | _, _ => false end.
(** two variables with three labels; the labels 0, 1, 2 of the first cost 5, 0, 3, those of the second 4, 1, 6; a pair of equal labels costs 1 *)
Definition sf_g : gmv ext := mkGmv [3; 3] [([0], fun l => match l with [0] => Fin 5 | [1] => Fin 0 | _ => Fin 3 end); ([1], fun l => match l with [0] => Fin 4 | [1] => Fin 1 | _ => Fin 6 end);
  ([0; 1], fun l => match l with [a; b] => if a =? b then Fin 1 else Fin 0 | _ => Fin 0 end)].
Lemma sf_g_ok : wf_gmv sf_g /\ fin_gmv finite sf_g /\ order_at_most 2 sf_g.
Proof.
  split; [split; repeat constructor; cbn; lia|]. split; [|repeat constructor]. repeat constructor; intros x _; cbn; unfold finite.
  - destruct (nth 0 x 0) as [|[|]]; eauto. - destruct (nth 1 x 0) as [|[|]]; eauto. - destruct (_ =? _); eauto.
Qed.
Definition sf_show (x : list nat) : list nat * ext * ext := (x, total AdderE sf_g x, NInf).
Example C65_example : truthful AdderE sf_g [sf_show [0; 0]; sf_show [1; 0]; sf_show [0; 1]] /\
  exists s, sf_infer ext ext_eqb AdderE MinimizerE sf_g sf_solvers LazyFlipperFusion (mkSfParam 1 10) (fun _ => false) (sf_new ext sf_g) [sf_show [0; 0]; sf_show [1; 0]; sf_show [0; 1]] = Ret (s, 3) /\
    sf_arg ext sf_g s = Ret [1; 1] /\ sf_value s = Fin 2.
Proof. split; [repeat constructor|]. eexists. split; [vm_compute; reflexivity|]. split; vm_compute; reflexivity. Qed.

(** Refuted: value() is the value of arg(), and arg() is as good as some labeling the inference showed.  In the first call the zeros of argOut_
    replace the labeling, which keeps its value. *)
Theorem C65_start_refuted : exists shows s x, truthful AdderE sf_g shows /\
  sf_infer ext ext_eqb AdderE MinimizerE sf_g sf_solvers LazyFlipperFusion (mkSfParam 1 10) (fun _ => false) (sf_new ext sf_g) shows = Ret (s, length shows) /\ sf_arg ext sf_g s = Ret x /\
  sf_value s <> total AdderE sf_g x /\ 2 <= length shows /\ Forall (fun sh => a_bop MinimizerE (snd (fst sh)) (total AdderE sf_g x) = true) shows.
Proof.
  exists [sf_show [1; 1]; sf_show [2; 1]]. eexists. exists [0; 0]. split; [repeat constructor|]. split; [vm_compute; reflexivity|]. split; [vm_compute; reflexivity|]. split; [vm_compute; discriminate|]. split; [cbn; lia|]. repeat constructor.
Qed.
Print Assumptions C65_start_refuted.

(** Refuted: with a fusion every n-th call, the labelings of the n-th, 2n-th, ... call are used.  The calls between count as calls without
    progress, so that with fuseNth beyond numStopIt the inference is stopped before the first fusion. *)
Theorem C65_nth_refuted : exists shows s, truthful AdderE sf_g shows /\ length shows = 20 /\
  sf_infer ext ext_eqb AdderE MinimizerE sf_g sf_solvers LazyFlipperFusion (mkSfParam 12 10) (fun _ => false) (sf_new ext sf_g) shows = Ret (s, 11) /\ sf_arg ext sf_g s = Ret [0; 0] /\
  nth_error shows 12 = Some (sf_show [1; 1]) /\ a_bop MinimizerE (total AdderE sf_g [1; 1]) (sf_value s) = true.
Proof.
  exists (sf_show [0; 0] :: repeat (sf_show [1; 1]) 19). eexists. split; [repeat constructor|]. split; [reflexivity|]. split; [vm_compute; reflexivity|]. split; [vm_compute; reflexivity|]. split; [reflexivity|]. reflexivity.
Qed.
Print Assumptions C65_nth_refuted.

(** Refuted: after infer() value() is the value of a labeling.  If the inference never calls its visitor, it is the neutral element. *)
Theorem C65_no_call_refuted : forall (g : gmv ext) solvers kind p stop best, exists s, sf_infer ext ext_eqb AdderE MinimizerE g solvers kind p stop best [] = Ret (s, 0) /\ sf_value s = PInf.
Proof. intros. eexists. split; reflexivity. Qed.
Print Assumptions C65_no_call_refuted.
(** Refuted: fuseNth may be any number.  With zero there is a division by zero in the second call. *)
Theorem C65_zero_nth_refuted : sf_infer ext ext_eqb AdderE MinimizerE sf_g sf_solvers LazyFlipperFusion (mkSfParam 0 10) (fun _ => false) (sf_new ext sf_g) [sf_show [0; 0]; sf_show [1; 1]] = Undef.
Proof. vm_compute. reflexivity. Qed.
Print Assumptions C65_zero_nth_refuted.
