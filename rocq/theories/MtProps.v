(** C72: the trees of modelTrees. *)
From Verif Require Import Base GmView GmViewSpec MtModel SwSpec MtSpec MtProofs.

(** The constructor finds parents and trees for the variables. *)
Theorem C72_forest : forall (T : Type) (g : gmv T), wf_gmv g -> exists t parent tree, mt_new T g = Ret t /\
  (forall v, v < length (v_labels g) -> mt_parentOfVariable T g t v = Ret (parent v) /\ mt_treeOfVariable T g t v = Ret (tree v)) /\ forest g parent tree.
Proof. intros T g W. destruct (mt_ok T g W) as (t & parent & tree & E & A & F & _). exists t, parent, tree. auto. Qed.
(** Of two variables that share a factor one is the parent of the other exactly if there is no cycle through both. *)
Theorem C72_links : forall (T : Type) (g : gmv T) t, wf_gmv g -> mt_new T g = Ret t ->
  forall v w p q, touching g v w -> mt_parentOfVariable T g t v = Ret p -> mt_parentOfVariable T g t w = Ret q -> ((p = w \/ q = v) <-> ~ exists S, cyclic g S /\ S v /\ S w).
Proof.
  intros T g t W N v w p q TV EP EQ. destruct (mt_ok T g W) as (t' & parent & tree & E & A & F & L & _). rewrite N in E. injection E as <-. destruct (touching_lt T g W _ _ TV) as [Hv Hw]. destruct (A v Hv) as [X _]. destruct (A w Hw) as [Y _]. rewrite X in EP. rewrite Y in EQ. injection EP as <-. injection EQ as <-. auto.
Qed.
(** Two variables of the same tree are connected, and in a model without cycles connected variables belong to the same tree. *)
Theorem C72_same_tree : forall (T : Type) (g : gmv T) t, wf_gmv g -> mt_new T g = Ret t ->
  forall u v a b, u < length (v_labels g) -> v < length (v_labels g) -> u <> v -> mt_treeOfVariable T g t u = Ret a -> mt_treeOfVariable T g t v = Ret b ->
  (a = b -> a < length (v_labels g) -> joined g u v) /\ ((forall S x, cyclic g S -> ~ S x) -> joined g u v -> a = b /\ a < length (v_labels g)).
Proof.
  intros T g t W N u v a b Hu Hv D EA EB. destruct (mt_ok T g W) as (t' & parent & tree & E & A & F & _ & J1 & J2 & _). rewrite N in E. injection E as <-. destruct (A u Hu) as [_ X]. destruct (A v Hv) as [_ Y]. rewrite X in EA. rewrite Y in EB. injection EA as <-. injection EB as <-. split; auto.
  intros H1 H2. destruct (J1 u v Hu Hv H1 H2) as [Z|Z]; [contradiction|auto].
Qed.
(** The roots are numbered in ascending order, and nodes() appends the variables of each tree to the lists it is given. *)
Theorem C72_numbers : forall (T : Type) (g : gmv T), wf_gmv g -> exists t roots tree, mt_new T g = Ret t /\
  (forall v, v < length (v_labels g) -> mt_treeOfVariable T g t v = Ret (tree v)) /\
  mt_roots T g t = Ret roots /\ roots = filter (fun r => tree r =? r) (seq 0 (length (v_labels g))) /\ mt_numberOfTrees t = length roots /\
  (forall v, v < length (v_labels g) -> (tree v = length (v_labels g) /\ mt_treeOfRoot T g t v = Ret (length (v_labels g))) \/ (tree v < length (v_labels g) /\ exists k, mt_treeOfRoot T g t v = Ret k /\ nth_error roots k = Some (tree v))) /\
  forall init, exists out, mt_nodes T g t init = Ret out /\ length out = length roots /\ forall k, k < length roots -> nth k out [] = nth k init [] ++ filter (fun v => tree v =? nth k roots 0) (seq 0 (length (v_labels g))).
Proof.
  intros T g W. destruct (mt_ok T g W) as (t & parent & tree & E & A & F & _ & _ & _ & N1 & N2 & N3 & N4). exists t, (filter (fun r => parent r =? r) (seq 0 (length (v_labels g)))), tree. split; auto. split; [intros v Hv; apply A; auto|]. split; auto. split; auto. clear - F.
  apply filter_ext_in. intros r Hr. apply in_seq in Hr. destruct Hr as [_ Hr]. cbn in Hr. destruct (F r Hr) as [(X & Y & _)|[(X & Y & _)|(X & Y & Z & L)]].
  - rewrite X, Y. auto.
  - rewrite X, Y. auto.
  - assert (D : parent r <> r). { intros D. rewrite D in Y. destruct Y. auto. } pose proof D as D'. apply Nat.eqb_neq in D'. rewrite D'. symmetry. apply Nat.eqb_neq. intros EQ.
    assert (R : forall p v q, leads p v q -> p q = q) by (clear; intros p v q H; induction H; auto). apply R in L. rewrite EQ in L. contradiction.
Qed.
Print Assumptions C72_forest.
Print Assumptions C72_links.
Print Assumptions C72_same_tree.
Print Assumptions C72_numbers.

Definition mt_gm : gmv nat := mkGmv (repeat 2 8) [([0; 1], fun _ => 0); ([1; 2], fun _ => 0); ([3; 4], fun _ => 0); ([4; 5], fun _ => 0); ([3; 5], fun _ => 0); ([5; 6], fun _ => 0); ([7], fun _ => 0)].
Lemma mt_gm_wf : wf_gmv mt_gm.
Proof. split; repeat constructor; cbn; lia. Qed.
(** A variable that shares no factor with another is no tree, although there is no cycle through it. *)
Theorem C72_lone_refuted : wf_gmv mt_gm /\ (forall S, cyclic mt_gm S -> ~ S 7) /\ exists t, mt_new nat mt_gm = Ret t /\ mt_treeOfVariable nat mt_gm t 7 = Ret 8 /\ mt_treeOfRoot nat mt_gm t 7 = Ret 8.
Proof.
  split; [apply mt_gm_wf|]. split.
  - intros S C H. destruct (C 7 H) as (_ & a & b & _ & _ & _ & (D & fc & I & A & B) & _). cbn in I. repeat (destruct I as [<-|I]; [cbn in A, B; lia|]). auto.
  - eexists. split; [vm_compute; reflexivity|]. split; vm_compute; reflexivity.
Qed.
(** nodes() with the vector of an earlier call lists every variable again. *)
Theorem C72_nodes_again_refuted : exists t out, mt_new nat mt_gm = Ret t /\ mt_nodes nat mt_gm t [] = Ret out /\ out = [[0; 1; 2]; [5; 6]] /\ mt_nodes nat mt_gm t out = Ret [[0; 1; 2; 0; 1; 2]; [5; 6; 5; 6]].
Proof. eexists _, _. split; [vm_compute; reflexivity|]. split; [vm_compute; reflexivity|]. split; vm_compute; reflexivity. Qed.
Print Assumptions C72_lone_refuted.
Print Assumptions C72_nodes_again_refuted.

(** A chain of three variables, a triangle with a variable attached to it, and a variable alone *)
Example C72_ex : exists t, mt_new nat mt_gm = Ret t /\ map (mt_parentOfVariable nat mt_gm t) (seq 0 8) = map Ret [0; 0; 1; 8; 8; 5; 5; 8] /\ map (mt_treeOfVariable nat mt_gm t) (seq 0 8) = map Ret [0; 0; 0; 8; 8; 5; 5; 8] /\
  mt_numberOfTrees t = 2 /\ mt_roots nat mt_gm t = Ret [0; 5] /\ map (mt_treeOfRoot nat mt_gm t) (seq 0 8) = map Ret [0; 0; 0; 8; 8; 1; 1; 8].
Proof. eexists. split; [vm_compute; reflexivity|]. repeat split; vm_compute; reflexivity. Qed.
Example C72_ex_cycle : cyclic mt_gm (fun v => 3 <= v <= 5) /\ touching mt_gm 3 4 /\ joined mt_gm 0 2.
Proof.
  assert (T34 : touching mt_gm 3 4) by (split; [lia|]; eexists; split; [right; right; left; reflexivity|]; cbn; auto).
  assert (T45 : touching mt_gm 4 5) by (split; [lia|]; eexists; split; [right; right; right; left; reflexivity|]; cbn; auto).
  assert (T35 : touching mt_gm 3 5) by (split; [lia|]; eexists; split; [right; right; right; right; left; reflexivity|]; cbn; auto).
  split; [|split; auto].
  - intros v Hv. split; [cbn; lia|]. assert (V : v = 3 \/ v = 4 \/ v = 5) by lia. destruct V as [->|[->| ->]]; [exists 4, 5|exists 3, 5|exists 3, 4]; repeat split; try lia; try apply T34; try apply T45; try apply T35; apply touching_sym; auto.
  - apply joined_more with (v := 1); [|apply joined_one]; (split; [lia|]); eexists; (split; [|split]); [left; reflexivity| | |right; left; reflexivity| |]; cbn; auto.
Qed.
