(** CombiLP: the properties. *)
From Coq Require Import ZArith QArith Qcanon.
From Verif Require Import Base Values GmView GmViewSpec GmViewProofs GmViewProps ShapeSpec ShapeProofs SubmodelModel ManipulatorModel DualDecompModel FmProps RedSpec RedInfer RedProps LprProps CombiModel CombiSpec CombiProofs CombiCycle CombiLoop.
Open Scope nat_scope.

(** ** Results *)
(** Inference always ends regularly. The labeling is the LP solver's one with its value and bound, or it is optimal, and then value and bound are
    its value. So the value is never worse than that of the LP solver, and no labeling beats the bound. *)
Theorem C61_valid : forall (T : Type) (OP : oper T) (ACC : accum T) (fin : T -> Prop), op_laws fin OP -> acc_laws fin OP ACC ->
  forall (g : gmv T) ilp par repa stop (L : lpres T), wf_gmv g -> fin_gmv fin g -> ilp_exact fin OP ACC ilp ->
  length (lp_agree L) = length (v_labels g) -> labeling g (lp_labeling L) ->
  (forall i m, length m = length (v_labels g) -> reparametrizes fin OP g (repa i m) /\ locally_best ACC (repa i m) (lp_agree L) (lp_labeling L)) ->
  labeling g (lp_arg L) -> lp_value L = total OP g (lp_arg L) -> (forall y, labeling g y -> a_bop ACC (total OP g y) (lp_bound L) = false) ->
  exists c, cl_infer T OP g ilp par repa stop L = Ret c /\ labeling g (cl_labeling c) /\ cl_value c = total OP g (cl_labeling c) /\
    a_bop ACC (lp_value L) (cl_value c) = false /\ (forall y, labeling g y -> a_bop ACC (total OP g y) (cl_bound c) = false) /\
    (cl_labeling c = lp_arg L /\ cl_bound c = lp_bound L \/ optimal OP ACC g (cl_labeling c) /\ cl_bound c = cl_value c).
Proof.
  intros T OP ACC fin OL AL g ilp par repa stop L W FG EX LA LP RE LR EV BD.
  destruct (infer_ok T OP ACC fin OL AL g W ilp EX par repa stop (lp_agree L) (lp_labeling L) LA LP RE L eq_refl eq_refl) as (c & E & H & _). exists c. split; auto.
  destruct H as [->|([OX OB] & VX & BX)]; cbn [cl_labeling cl_value cl_bound].
  - split; auto. split; auto. split; [|auto]. apply (al_irrefl _ _ _ AL). rewrite EV. unfold total. apply (fold_fin T OP fin OL); auto; [|apply (ol_neutral _ _ OL)]. apply (okx_all T fin g FG); auto. apply incl_refl.
  - split; auto. split; auto. split; [rewrite EV, VX; auto|]. split; [intros y LY; rewrite BX, VX; auto|]. right. split; auto. split; auto.
Qed.
Print Assumptions C61_valid.

(** If the trees do not agree everywhere, the ILP solver never fails, the visitor does not stop and as many cycles are allowed as there are
    variables, the labeling is optimal and value and bound are its value. *)
Theorem C61_solves : forall (T : Type) (OP : oper T) (ACC : accum T) (fin : T -> Prop), op_laws fin OP -> acc_laws fin OP ACC ->
  forall (g : gmv T) ilp par repa stop (L : lpres T), wf_gmv g -> ilp_exact fin OP ACC ilp -> ilp_complete fin OP ilp ->
  length (lp_agree L) = length (v_labels g) -> labeling g (lp_labeling L) ->
  (forall i m, length m = length (v_labels g) -> reparametrizes fin OP g (repa i m) /\ locally_best ACC (repa i m) (lp_agree L) (lp_labeling L)) ->
  In false (lp_agree L) -> length (v_labels g) <= cp_cycles par -> (forall j, stop j = false) ->
  exists c, cl_infer T OP g ilp par repa stop L = Ret c /\ optimal OP ACC g (cl_labeling c) /\ cl_value c = total OP g (cl_labeling c) /\ cl_bound c = cl_value c.
Proof.
  intros T OP ACC fin OL AL g ilp par repa stop L W EX CO LA LP RE NA LC NS.
  destruct (infer_ok T OP ACC fin OL AL g W ilp EX par repa stop (lp_agree L) (lp_labeling L) LA LP RE L eq_refl eq_refl) as (c & E & _ & H). exists c. split; auto. apply H; auto.
  destruct (forallb (fun b => b) (lp_agree L)) eqn:F; auto. rewrite forallb_forall in F. specialize (F false NA). discriminate.
Qed.
Print Assumptions C61_solves.

(** If the trees agree everywhere, the agreed labeling is optimal. The result is the LP solver's one. *)
Theorem C61_agreed : forall (T : Type) (OP : oper T) (ACC : accum T) (fin : T -> Prop), op_laws fin OP -> acc_laws fin OP ACC ->
  forall (g gr : gmv T) ilp par repa stop (L : lpres T), wf_gmv g -> length (lp_agree L) = length (v_labels g) -> labeling g (lp_labeling L) ->
  reparametrizes fin OP g gr -> locally_best ACC gr (lp_agree L) (lp_labeling L) -> Forall (eq true) (lp_agree L) ->
  optimal OP ACC g (lp_labeling L) /\ cl_infer T OP g ilp par repa stop L = Ret (mkCl (lp_arg L) (lp_value L) (lp_bound L)).
Proof.
  intros T OP ACC fin OL AL g gr ilp par repa stop L W LA LP RP LO AG. split.
  - apply (repa_optimal T OP ACC fin g gr); auto. pose proof (repa_wf T OP fin g W gr RP) as WR. destruct RP as (EL & EF & FG & ET). assert (LP' : labeling gr (lp_labeling L)) by (unfold labeling; rewrite EL; auto). split; auto.
    intros y LY. unfold total. apply (fold_mono T OP ACC fin OL AL); [apply (okx_all T fin gr FG); auto; apply incl_refl..|apply (ol_neutral _ _ OL)|apply (ol_neutral _ _ OL)|apply (al_irrefl _ _ _ AL); apply (ol_neutral _ _ OL)|].
    intros fc I. apply LO; auto; [|apply (at_in T gr WR (lp_agree L)); auto; rewrite EL; auto]. pose proof (vis_lt T gr WR fc I) as F. apply Forall_forall. intros v Iv. rewrite Forall_forall in F, AG. symmetry. apply AG. apply nth_In. rewrite LA, <- EL. auto.
  - unfold cl_infer. destruct (stop 0); auto. replace (forallb (fun b => b) (lp_agree L)) with true; auto. symmetry. apply forallb_forall. intros b I. rewrite Forall_forall in AG. symmetry. apply AG. auto.
Qed.
Print Assumptions C61_agreed.

(** ** Agreement of the trees *)
(** [trees]: for each variable its labels in the trees that contain it. A variable is marked if and only if its labels in all its trees are the same;
    then this is its label. In any case its label is the one of a tree, or zero if no tree contains the variable. *)
Lemma tree_rest_ok : forall labels label last, (fst (tree_rest label last labels) = true <-> Forall (eq label) labels) /\
  (last = label -> fst (tree_rest label last labels) = true -> snd (tree_rest label last labels) = label) /\ In (snd (tree_rest label last labels)) (last :: labels).
Proof.
  induction labels as [|l labels IH]; intros label last; cbn [tree_rest].
  - split; [split; auto|]. split; auto. left. auto.
  - destruct (Nat.eqb_spec l label) as [->|D].
    + destruct (IH label label) as (H1 & H2 & H3). split; [rewrite H1; split; [constructor; auto|intros F; inversion F; auto]|]. split; [auto|]. right. auto.
    + cbn. split; [split; [discriminate|intros F; inversion F; congruence]|]. split; [discriminate|]. right. left. auto.
Qed.
Theorem C61_trees : forall trees agree x, getTreeAgreement trees = (agree, x) -> length agree = length trees /\ length x = length trees /\
  forall v t, nth_error trees v = Some t ->
    (nth v agree false = true <-> forall a b, In a t -> In b t -> a = b) /\ (forall a, In a t -> nth v agree false = true -> nth v x 0 = a) /\ (t <> [] -> In (nth v x 0) t) /\ (t = [] -> nth v x 0 = 0).
Proof.
  intros trees agree x [= <- <-]. split; [apply map_length|]. split; [apply map_length|]. intros v t E.
  assert (Hv : v < length trees) by (apply nth_error_Some; congruence).
  rewrite (nth_indep (map _ trees) false (fst (tree_agreement []))) by (rewrite map_length; auto). rewrite (map_nth (fun t => fst (tree_agreement t))).
  rewrite (nth_indep (map _ trees) 0 (snd (tree_agreement []))) by (rewrite map_length; auto). rewrite (map_nth (fun t => snd (tree_agreement t))).
  rewrite (nth_error_nth _ _ [] E). destruct t as [|l t]; cbn [tree_agreement].
  - cbn. split; [split; [intros _ a b []|auto]|]. split; [intros a []|]. split; [contradiction|auto].
  - destruct (tree_rest_ok t l l) as (H1 & H2 & H3).
    assert (EQ : fst (tree_rest l l t) = true <-> forall a b, In a (l :: t) -> In b (l :: t) -> a = b).
    { rewrite H1, Forall_forall. split; [|intros H b I; apply H; [left; auto|right; auto]]. intros H a b [<-|Ia] [<-|Ib]; auto; [symmetry; auto|]. rewrite <- (H a Ia), <- (H b Ib). auto. }
    split; auto. split; [|split; [|discriminate]].
    + intros a Ia O. rewrite H2; auto. apply (proj1 EQ O); auto. left. auto.
    + intros _. exact H3.
Qed.
Print Assumptions C61_trees.
Example C61_trees_case : getTreeAgreement [[2; 2; 2]; [1; 0]; []] = ([true; false; true], [2; 0; 0]).
Proof. reflexivity. Qed.

(** ** Cases *)
(** An ILP solver: trying all labelings *)
Definition try_ilp {T : Type} (OP : oper T) (ACC : accum T) : nat -> nat -> subgm T -> option (list nat) := fun _ _ gm => match brute T OP ACC gm with Ret (a, _) => Some a | _ => None end.
Theorem C61_solver_exists : forall (T : Type) (OP : oper T) (ACC : accum T) (fin : T -> Prop), acc_laws fin OP ACC -> ilp_exact fin OP ACC (try_ilp OP ACC) /\ ilp_complete fin OP (try_ilp OP ACC).
Proof.
  intros T OP ACC fin AL. destruct (C59_solver_exists T OP ACC fin AL) as (LA & EX & _ & _). split.
  - intros i j gm a U E. unfold try_ilp in E. destruct (LA gm U) as (a' & b & E' & S). rewrite E' in E. injection E as ->. split; auto. intros y e e'. apply (EX gm a b); auto.
  - intros i j gm U E. unfold try_ilp in E. destruct (LA gm U) as (a' & b & E' & S). rewrite E' in E. discriminate.
Qed.
Print Assumptions C61_solver_exists.

(** Four variables in a chain; the first one disagrees. The boundary does not match in the first cycle, but in the second one. *)
Definition cb_g : gmv Qc := mkGmv [2; 2; 2; 2]
  [([1], fun l => match l with [1] => qz 1 | _ => qz 0 end); ([0; 1], fun l => match l with [1; 1] => qz (-10) | _ => qz 0 end);
   ([1; 2], fun l => match l with [1; 0] => qz 1 | [1; 1] => qz 5 | _ => qz 0 end); ([2; 3], fun l => match l with [0; 0] => qz (-1) | _ => qz 0 end)].
Definition cb_lp : lpres Qc := mkLp (qz (-1)) (qz (-11)) [0; 0; 0; 0] [false; true; true; true] [1; 0; 0; 0].
Definition cb_run (cycles : nat) (single : bool) : outcome (cl Qc) := cl_infer Qc AdderQ cb_g (try_ilp AdderQ MinimizerQ) (mkClp cycles single) (fun _ _ => cb_g) (fun _ => false) cb_lp.
Lemma cb_wf : wf_gmv cb_g.
Proof. split; [|repeat constructor]. unfold cb_g. cbn [v_factors v_labels]. repeat (apply Forall_cons; [split; repeat constructor|]). apply Forall_nil. Qed.
Lemma cb_fin : fin_gmv allQ cb_g.
Proof. apply Forall_forall. intros. exact I. Qed.
Lemma cb_repa : reparametrizes allQ AdderQ cb_g cb_g /\ locally_best MinimizerQ cb_g (lp_agree cb_lp) (lp_labeling cb_lp).
Proof.
  split; [repeat split; auto; apply cb_fin|]. intros fc I A c S. cbn [cb_g v_factors v_labels In] in I. apply labelings_In in S.
  destruct I as [<-|[<-|[<-|[<-|[]]]]]; cbn [fst snd] in *.
  - cbn in S. destruct S as [<-|[<-|[]]]; vm_compute; reflexivity.
  - exfalso. inversion A as [|? ? A0 _]. discriminate.
  - cbn in S. destruct S as [<-|[<-|[<-|[<-|[]]]]]; vm_compute; reflexivity.
  - cbn in S. destruct S as [<-|[<-|[<-|[<-|[]]]]]; vm_compute; reflexivity.
Qed.
Example C61_case : (forall single, cb_run 4 single = Ret (mkCl [1; 1; 0; 0] (qz (-9)) (qz (-9)))) /\ cb_run 2 false = cb_run 4 false /\ cb_run 1 false = Ret (mkCl [0; 0; 0; 0] (qz (-1)) (qz (-11))).
Proof. split; [intros []; vm_compute; reflexivity|]. split; vm_compute; reflexivity. Qed.
Example C61_case_all : optimal AdderQ MinimizerQ cb_g [1; 1; 0; 0] /\ a_bop MinimizerQ (qz (-1)) (qz (-9)) = false.
Proof.
  destruct (C61_solver_exists Qc AdderQ MinimizerQ allQ minimizerQ_laws) as [EX CO].
  destruct (C61_solves Qc AdderQ MinimizerQ allQ adderQ_laws minimizerQ_laws cb_g (try_ilp AdderQ MinimizerQ) (mkClp 4 false) (fun _ _ => cb_g) (fun _ => false) cb_lp cb_wf EX CO eq_refl) as (c & E & H & _); auto.
  - repeat constructor.
  - intros. apply cb_repa.
  - left. auto.
  - fold (cb_run 4 false) in E. rewrite (proj1 C61_case false) in E. injection E as <-. split; [exact H|]. vm_compute. reflexivity.
Qed.

(** The submodels are always solved with the Minimizer: with the Maximizer the result need not be optimal. *)
Definition cb_h : gmv Qc := mkGmv [2; 2] [([0; 1], fun l => match l with [1; 1] => qz 3 | [0; 1] => qz (-2) | _ => qz 0 end)].
Theorem C61_maximizer_refuted : ~ (forall (g : gmv Qc) ilp par repa stop (L : lpres Qc), wf_gmv g -> ilp_exact allQ AdderQ MinimizerQ ilp -> ilp_complete allQ AdderQ ilp ->
  length (lp_agree L) = length (v_labels g) -> labeling g (lp_labeling L) ->
  (forall i m, length m = length (v_labels g) -> reparametrizes allQ AdderQ g (repa i m) /\ locally_best MaximizerQ (repa i m) (lp_agree L) (lp_labeling L)) ->
  In false (lp_agree L) -> length (v_labels g) <= cp_cycles par -> (forall j, stop j = false) ->
  exists c, cl_infer Qc AdderQ g ilp par repa stop L = Ret c /\ optimal AdderQ MaximizerQ g (cl_labeling c)).
Proof.
  intros H. destruct (C61_solver_exists Qc AdderQ MinimizerQ allQ minimizerQ_laws) as [EX CO].
  destruct (H cb_h (try_ilp AdderQ MinimizerQ) (mkClp 2 false) (fun _ _ => cb_h) (fun _ => false) (mkLp (qz 3) (qz 3) [1; 1] [false; false] [1; 1])) as (c & E & O); auto.
  - split; [|repeat constructor]. unfold cb_h. cbn [v_factors v_labels]. repeat (apply Forall_cons; [split; repeat constructor|]). apply Forall_nil.
  - repeat constructor.
  - intros. split; [repeat split; auto; apply Forall_forall; intros; exact I|]. intros fc I A. cbn in I. destruct I as [<-|[]]. inversion A. discriminate.
  - left. auto.
  - assert (E' : cl_infer Qc AdderQ cb_h (try_ilp AdderQ MinimizerQ) (mkClp 2 false) (fun _ _ => cb_h) (fun _ => false) (mkLp (qz 3) (qz 3) [1; 1] [false; false] [1; 1]) = Ret (mkCl [0; 1] (qz (-2)) (qz (-2)))) by (vm_compute; reflexivity).
    rewrite E' in E. injection E as <-. destruct O as [_ O]. assert (B : a_bop MaximizerQ (total AdderQ cb_h [1; 1]) (total AdderQ cb_h [0; 1]) = false) by (apply O; repeat constructor). vm_compute in B. discriminate B.
Qed.
Print Assumptions C61_maximizer_refuted.
