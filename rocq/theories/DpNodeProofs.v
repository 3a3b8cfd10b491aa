(** Proofs for getNodeInfo: the best labelings of a tree for each label of its root. *)
From Coq Require Import Relations.Relation_Operators Permutation.
From Verif Require Import Base Values GmView GmViewSpec GmProofs GmViewProofs ShapeSpec ShapeProofs OperationsModel GmViewProps IcmProofs SubmodelModel SubmodelProps DpModel DpSpec DpOrder DpInfer DpProofs DpNodeModel TentacleSpec.
#[local] Arguments nth_error : simpl never.

Lemma Forall2_weaken : forall A B (P Q : A -> B -> Prop) l m, (forall a b, P a b -> Q a b) -> Forall2 P l m -> Forall2 Q l m.
Proof. intros A B P Q l m H F. induction F; constructor; auto. Qed.

Lemma filter_empty : forall A (p : A -> bool) l, (forall a, In a l -> p a = false) -> filter p l = [].
Proof. intros A p. induction l as [|a l IH]; intros H; auto. cbn [filter]. rewrite (H a) by (left; auto). apply IH. intros. apply H. right. auto. Qed.

(** ** The root is the first node *)
Section Root.
Variable T : Type.
Variable g : gmv T.
Let n := length (v_labels g).

Definition keeps (c c' : ctor) : Prop := forall v a, nth_error (c_order c) v = Some (Some a) -> nth_error (c_order c') v = Some (Some a).
Lemma keeps_refl : forall c, keeps c c.
Proof. intros c v a H. auto. Qed.
Lemma keeps_trans : forall a b c, keeps a b -> keeps b c -> keeps a c.
Proof. intros a b c H1 H2 v x H. auto. Qed.
Lemma wr_keeps : forall (l l' : list (option nat)) i a, wr l i a = Ret l' -> (exists q, nth_error l i = Some q /\ is_none q = true) -> forall v x, nth_error l v = Some (Some x) -> nth_error l' v = Some (Some x).
Proof.
  intros l l' i a E (q & Q & N) v x H. assert (Hi : i < length l) by (apply nth_error_Some; congruence). rewrite wr_Ret in E by auto. injection E as <-.
  rewrite nth_error_upd_neq; auto. intros ->. rewrite Q in H. injection H as ->. discriminate.
Qed.
Lemma discover_keeps : forall node other c c', discover node other c = Ret c' -> (exists q, nth_error (c_order c) other = Some q /\ is_none q = true) -> keeps c c'.
Proof.
  intros node other c c' E Q v a H. unfold discover in E. destruct (wr (c_order c) other (Some (c_count c))) as [ord| | |] eqn:W; try discriminate. cbn [bind] in E.
  destruct (rd (c_children c) node); try discriminate. cbn [bind] in E. destruct (wr (c_children c) node (S a0)); try discriminate. cbn [bind] in E. injection E as <-. cbn [c_order]. eapply wr_keeps; eauto.
Qed.
Lemma rd_Some : forall (A : Type) (l : list A) i a, rd l i = Ret a -> nth_error l i = Some a.
Proof. intros A l i a H. unfold rd in H. destruct (nth_error l i); congruence. Qed.
Lemma order_factor_keeps : forall node c k c', order_factor T g node c k = Ret c' -> keeps c c'.
Proof.
  intros node c k c' E. unfold order_factor in E. destruct (rd (v_factors g) k) as [fc| | |]; try discriminate. cbn [bind] in E.
  destruct (fst fc) as [|v0 [|v1 [|? ?]]]; try (injection E as <-; apply keeps_refl).
  destruct (rd (c_order c) v0) as [o0| | |] eqn:R0; try discriminate. cbn [bind] in E.
  destruct (if (v1 =? node) && is_none o0 then discover node v0 c else Ret c) as [c1| | |] eqn:E1; try discriminate. cbn [bind] in E.
  destruct (rd (c_order c1) v1) as [o1| | |] eqn:R1; try discriminate. cbn [bind] in E.
  apply keeps_trans with c1.
  - destruct ((v1 =? node) && is_none o0) eqn:B; [|injection E1 as <-; apply keeps_refl]. apply andb_prop in B. eapply discover_keeps; eauto. exists o0. split; [apply rd_Some; auto|tauto].
  - destruct ((v0 =? node) && is_none o1) eqn:B; [|injection E as <-; apply keeps_refl]. apply andb_prop in B. eapply discover_keeps; eauto. exists o1. split; [apply rd_Some; auto|tauto].
Qed.
Lemma order_node_keeps : forall node ks c c', foldM (order_factor T g node) ks c = Ret c' -> keeps c c'.
Proof.
  intros node. induction ks as [|k ks IH]; intros c c' E; cbn [foldM] in E; [injection E as <-; apply keeps_refl|].
  destruct (order_factor T g node c k) as [c1| | |] eqn:E1; try discriminate. cbn [bind] in E. apply keeps_trans with c1; [eapply order_factor_keeps; eauto|auto].
Qed.
Lemma order_loop_keeps : forall fuel c c', order_loop T g fuel c = Ret c' -> keeps c c'.
Proof.
  induction fuel as [|fuel IH]; intros c c' E; cbn [order_loop] in E; [discriminate|]. destruct (c_stack c) as [|node stack]; [injection E as <-; apply keeps_refl|].
  destruct (foldM (order_factor T g node) (v_adj T g node) (mkC (c_order c) (c_count c) stack (c_children c))) as [c1| | |] eqn:E1; try discriminate. cbn [bind] in E.
  apply order_node_keeps in E1. apply IH in E. intros v a H. apply E. apply E1. auto.
Qed.
Lemma order_all_keeps : forall fuel left c c', order_all T g fuel left [] c = Ret c' -> keeps c c'.
Proof.
  intros fuel. induction left as [|left IH]; intros c c' E; cbn [order_all] in E; [injection E as <-; apply keeps_refl|].
  destruct (length (v_labels g) <=? c_count c); [injection E as <-; apply keeps_refl|].
  destruct (rd (c_order c) (length (v_labels g) - S left)) as [o| | |] eqn:R; try discriminate. cbn [bind] in E. apply rd_Some in R.
  destruct (is_none o) eqn:N.
  - destruct (wr (c_order c) (length (v_labels g) - S left) (Some (c_count c))) as [ord| | |] eqn:W; try discriminate. cbn [bind] in E.
    destruct (order_loop T g fuel _) as [c1| | |] eqn:L; try discriminate. cbn [bind] in E. apply order_loop_keeps in L. apply IH in E. intros v a H. apply E, L. cbn [c_order]. eapply wr_keeps; eauto.
  - cbn [bind] in E. destruct (order_loop T g fuel c) as [c1| | |] eqn:L; try discriminate. cbn [bind] in E. apply order_loop_keeps in L. apply IH in E. eapply keeps_trans; eauto.
Qed.
Theorem root_first : forall r d, r < n -> dp_new T g [r] = Ret d -> ord_of (d_order d) r = 0.
Proof.
  intros r d Hr E. unfold dp_new in E. fold n in E. destruct (order_all T g (S n) n [r] _) as [c| | |] eqn:A; try discriminate. cbn [bind] in E.
  assert (R : nth_error (c_order c) r = Some (Some 0)).
  { destruct n as [|m] eqn:N; [lia|]. cbn [order_all] in A. fold n in A. rewrite N in A. cbn [c_count Nat.leb c_order c_stack c_children] in A.
    rewrite wr_Ret in A by (rewrite repeat_length; lia). cbn [bind] in A. destruct (order_loop T g (S (S m)) _) as [c1| | |] eqn:L; try discriminate. cbn [bind] in A.
    apply order_loop_keeps in L. apply order_all_keeps in A. apply A, L. cbn [c_order]. apply nth_error_upd_eq. rewrite repeat_length. lia. }
  destruct (mapM get (c_order c)) as [order| | |] eqn:G; try discriminate. cbn [bind] in E.
  destruct (foldM _ (seq 0 n) (repeat None n)) as [nodes| | |]; try discriminate. cbn [bind] in E. destruct (mapM get nodes) as [nodes'| | |]; try discriminate. cbn [bind] in E. injection E as <-. cbn [d_order].
  clear A. unfold ord_of. revert r Hr order G R. induction (c_order c) as [|a l IH]; intros r Hr order G R; [destruct r; discriminate|]. cbn [mapM] in G.
  destruct a as [a|]; cbn [get bind] in G; [|discriminate]. destruct (mapM get l) as [o'| | |] eqn:GL; try discriminate. cbn [bind] in G. injection G as <-. destruct r as [|r]; [cbn in R; injection R as ->; auto|]. cbn [nth]. apply (IH r); auto. lia.
Qed.
End Root.

(** ** The walk from the root *)
Section Walk.
Variable T : Type.
Variable OP : oper T.
Variable ACC : accum T.
Variable fin : T -> Prop.
Hypothesis OL : op_laws fin OP.
Hypothesis AL : acc_laws fin OP ACC.
Hypothesis AS : acc_select fin ACC.
Variable g : gmv T.
Hypothesis W : wf_gmv g.
Hypothesis FG : fin_gmv fin g.
Hypothesis SO : second_order g.
Variable order nodes0 : list nat.
Variable st_0 : list (list (option nat)).
Hypothesis OD : ordered T g order nodes0 st_0.
Let n := length (v_labels g).
Notation o := (ord_of order).
Notation L := (lab T g).
Notation childf := (child_of T g order).
Notation K := (v_adj T g).
Variable valb : list (list (option T)).
Variable st : list (list (option nat)).
Hypothesis NOK : forall v, v < n -> node_ok T OP ACC fin g order valb st v.
Notation vl := (vl T OP valb).
Notation sl := (sl st).
Notation slot := (slot T g order).
Variable d : dp T.
Hypothesis DO : d_order d = order.
Hypothesis DV : d_val d = valb.
Hypothesis DS : d_st d = st.
Notation astep := (astep T g order st).

(** The walk without the distinction of the first round. *)
Definition gstep (node ln : nat) (w : walk) (k : nat) : walk :=
  match childf node k with
  | Some c => mkWalk (upd (w_arg w) c (Some (sl node (slot node k ln)))) (c :: w_stack w) (w_sub w ++ [sl node (slot node k ln)]) (w_nodes w ++ [c])
  | None => w
  end.
Definition view (first : bool) (ns : list nat) (w : walk) : walk := mkWalk (w_arg w) (w_stack w) (w_sub w) (if first then w_nodes w else ns).

Lemma gstep_astep : forall node ln ks w, (w_arg (fold_left (gstep node ln) ks w), w_stack (fold_left (gstep node ln) ks w)) = fold_left (astep node ln) ks (w_arg w, w_stack w).
Proof.
  intros node ln. induction ks as [|k ks IH]; intros w; auto. cbn [fold_left]. rewrite IH. f_equal. unfold gstep, DpProofs.astep. destruct (childf node k); auto.
Qed.
Lemma info_factor_ok : forall first ns node ln w ks1 k ks2, node < n -> K node = ks1 ++ k :: ks2 -> length (w_arg w) = n -> nth_error (w_arg w) node = Some (Some ln) -> ln < L node ->
  info_factor T g d first node (view first ns w, length (filter (is_child T g order node) ks1)) k =
    Ret (view first ns (gstep node ln w k), length (filter (is_child T g order node) (ks1 ++ [k]))).
Proof.
  intros first ns node ln w ks1 k ks2 Hn EA Lx Ex Hln. assert (Hk : In k (K node)) by (rewrite EA; apply in_app_iff; right; left; auto).
  apply v_adj_spec in Hk. destruct Hk as (fc & Ek & Hin). unfold info_factor. rewrite (rd_Ret _ _ _ _ Ek). cbn [bind].
  rewrite filter_app, app_length. cbn [filter]. set (N := length (filter (is_child T g order node) ks1)).
  assert (IC : is_child T g order node k = match childf node k with Some _ => true | None => false end) by reflexivity. rewrite IC. clear IC.
  assert (NC : childf node k = None -> Ret (view first ns w, N) = Ret (view first ns (gstep node ln w k), N + length (if match childf node k with Some _ => true | None => false end then [k] else []))).
  { intros E. unfold gstep. rewrite E. cbn [length]. rewrite Nat.add_0_r. auto. }
  assert (ASG : forall c, childf node k = Some c -> info_assign T g d first node c (view first ns w, N) = Ret (view first ns (gstep node ln w k), N + length (if match childf node k with Some _ => true | None => false end then [k] else []))).
  { intros c C. unfold info_assign, view. cbn [w_arg w_stack w_sub w_nodes]. rewrite (rd_Ret _ _ _ _ Ex). cbn [bind get].
    destruct (NOK node Hn) as [_ H]. destruct (H k c ln C Hln) as (R & _). unfold DpInfer.slot in R at 1. rewrite (kidx_at T g order _ _ _ _ EA) in R. unfold lab in R at 1. fold N in R. rewrite DS, R. cbn [bind].
    rewrite wr_Ret by (rewrite Lx; eapply (child_facts T g W order); eauto). cbn [bind]. rewrite C. cbn [length]. rewrite Nat.add_1_r. unfold gstep. rewrite C. cbn [w_arg w_stack w_sub w_nodes]. destruct first; auto. }
  destruct fc as [vis f]. cbn [fst snd] in *. destruct vis as [|v0 [|v1 [|? ?]]]; [destruct Hin| | |].
  - apply NC. unfold child_of. rewrite Ek. auto.
  - assert (HE : edge g k v0 v1) by (exists ([v0; v1], f); auto). destruct (edge_bound T g W _ _ _ HE) as (B0 & B1 & ND). fold n in B0, B1.
    rewrite DO. rewrite !(rd_nth _ order _ 0) by (rewrite (od_len _ _ _ _ _ OD); auto). cbn [bind]. fold (o node) (o v0) (o v1).
    assert (CO : childf node k = if (v0 =? node) && (o node <? o v1) then Some v1 else if (v1 =? node) && (o node <? o v0) then Some v0 else None) by (unfold child_of; rewrite Ek; auto).
    destruct (Nat.eqb_spec v1 node) as [E1|N1].
    + assert (N0 : v0 <> node) by congruence. apply Nat.eqb_neq in N0. rewrite N0 in *. cbn [andb] in *. destruct (o node <? o v0) eqn:OO.
      * rewrite (ASG v0 CO). cbn [bind]. auto.
      * cbn [bind]. apply NC. auto.
    + cbn [andb bind] in *. destruct ((v0 =? node) && (o node <? o v1)) eqn:OO.
      * apply (ASG v1 CO).
      * apply NC. auto.
  - apply NC. unfold child_of. rewrite Ek. auto.
Qed.
Lemma gstep_keep : forall node ln ks w, nth_error (w_arg (fold_left (gstep node ln) ks w)) node = nth_error (w_arg w) node /\ length (w_arg (fold_left (gstep node ln) ks w)) = length (w_arg w).
Proof.
  intros node ln ks w. pose proof (gstep_astep node ln ks w) as E. destruct (astep_keep T g W order st node ln ks (w_arg w) (w_stack w)) as [A B]. rewrite <- E in A, B. auto.
Qed.
Lemma info_node_ok : forall first ns node ln w, node < n -> length (w_arg w) = n -> nth_error (w_arg w) node = Some (Some ln) -> ln < L node ->
  exists cc, foldM (info_factor T g d first node) (K node) (view first ns w, 0) = Ret (view first ns (fold_left (gstep node ln) (K node) w), cc).
Proof.
  intros first ns node ln w Hn Lx Ex Hln.
  assert (G : forall ks2 ks1 w, K node = ks1 ++ ks2 -> length (w_arg w) = n -> nth_error (w_arg w) node = Some (Some ln) ->
    exists cc, foldM (info_factor T g d first node) ks2 (view first ns w, length (filter (is_child T g order node) ks1)) = Ret (view first ns (fold_left (gstep node ln) ks2 w), cc)).
  { induction ks2 as [|k ks2 IH]; intros ks1 y EA Ly Ey; [eexists; reflexivity|]. cbn [foldM fold_left]. rewrite (info_factor_ok first ns node ln y ks1 k ks2) by auto. cbn [bind].
    destruct (gstep_keep node ln [k] y) as [A B]. cbn [fold_left] in A, B. apply IH; [rewrite <- app_assoc; auto|rewrite B; auto|rewrite A; auto]. }
  apply (G (K node) []); auto.
Qed.
(** The order of the nodes does not depend on labels. *)
Definition tstep (node : nat) (p : list nat * list nat) (k : nat) : list nat * list nat :=
  match childf node k with Some c => (c :: fst p, snd p ++ [c]) | None => p end.
Fixpoint trace (fuel : nat) (stack ns : list nat) : list nat :=
  match fuel with
  | 0 => ns
  | S fuel => match stack with [] => ns | node :: stack => let p := fold_left (tstep node) (K node) (stack, ns) in trace fuel (fst p) (snd p) end
  end.
Lemma gstep_tstep : forall node ln ks w, (w_stack (fold_left (gstep node ln) ks w), w_nodes (fold_left (gstep node ln) ks w)) = fold_left (tstep node) ks (w_stack w, w_nodes w).
Proof. intros node ln. induction ks as [|k ks IH]; intros w; auto. cbn [fold_left]. rewrite IH. f_equal. unfold gstep, tstep. destruct (childf node k); auto. Qed.
Lemma gstep_spec : forall node ln ks w, exists cs ss, w_stack (fold_left (gstep node ln) ks w) = cs ++ w_stack w /\ w_nodes (fold_left (gstep node ln) ks w) = w_nodes w ++ rev cs /\
  w_sub (fold_left (gstep node ln) ks w) = w_sub w ++ ss /\ Forall2 (fun c s => exists k, In k ks /\ childf node k = Some c /\ s = sl node (slot node k ln)) (rev cs) ss.
Proof.
  intros node ln ks w. induction ks as [|k ks IH] using rev_ind.
  - exists [], []. cbn. rewrite !app_nil_r. auto.
  - destruct IH as (cs & ss & A & B & C & D). rewrite fold_left_app. cbn [fold_left]. unfold gstep at 1 3 5. 
    assert (M : Forall2 (fun c s => exists k0, In k0 (ks ++ [k]) /\ childf node k0 = Some c /\ s = sl node (slot node k0 ln)) (rev cs) ss).
    { eapply Forall2_weaken; [|exact D]. cbn. intros c s (k0 & I & E). exists k0. split; auto. apply in_app_iff. auto. }
    destruct (childf node k) as [c|] eqn:Ck.
    + exists (c :: cs), (ss ++ [sl node (slot node k ln)]). cbn [w_stack w_nodes w_sub rev]. rewrite A, B, C, <- !app_assoc. split; auto. split; auto. split; auto. apply Forall2_app; auto. constructor; auto. exists k. split; auto. apply in_app_iff. right. left. auto.
    + exists cs, ss. auto.
Qed.

Variable root : nat.
Record winv (w : walk) (done : list nat) : Prop := {
  wi_len : length (w_arg w) = n;
  wi_lab : forall v l, nth_error (w_arg w) v = Some (Some l) -> l < L v;
  wi_all : forall v, In v (done ++ w_stack w) <-> exists l, nth_error (w_arg w) v = Some (Some l);
  wi_kids : forall v l k c, In v done -> nth_error (w_arg w) v = Some (Some l) -> childf v k = Some c -> nth_error (w_arg w) c = Some (Some (sl v (slot v k l)));
  wi_nd : NoDup (done ++ w_stack w);
  wi_par : forall v, In v (done ++ w_stack w) -> v = root \/ exists q k, In q done /\ childf q k = Some v;
  wi_root : In root (done ++ w_stack w);
  wi_nodes : forall v, In v (done ++ w_stack w) -> v = root \/ In v (w_nodes w);
  wi_sub : Forall2 (fun c s => nth_error (w_arg w) c = Some (Some s)) (w_nodes w) (w_sub w) }.
Hypothesis RN : forall q k, childf q k <> Some root.

Lemma winv_step : forall node ln stack w done, winv w done -> w_stack w = node :: stack -> nth_error (w_arg w) node = Some (Some ln) ->
  winv (fold_left (gstep node ln) (K node) (mkWalk (w_arg w) stack (w_sub w) (w_nodes w))) (node :: done).
Proof.
  intros node ln stack w done [W1 W2 W3 W4 W5 W6 W7 W8 W9] ES Ex. rewrite ES in *. set (w0 := mkWalk (w_arg w) stack (w_sub w) (w_nodes w)).
  assert (Hn : node < n) by (rewrite <- W1; apply nth_error_Some; congruence).
  destruct (gstep_spec node ln (K node) w0) as (cs & ss & A & B & C & D). pose proof (gstep_astep node ln (K node) w0) as E. cbn [w0 w_arg w_stack w_sub w_nodes] in A, B, C, E.
  destruct (astep_spec T g W order nodes0 st_0 OD st node ln (K node) (w_arg w) stack (v_adj_NoDup T g node) W1) as (cs' & E' & NDc & HI & HA & HU).
  destruct (astep_keep T g W order st node ln (K node) (w_arg w) stack) as [KE KL]. rewrite <- E in E', HA, HU, KE, KL. cbn [fst snd] in *. rewrite A in E'. apply app_inv_tail in E'. subst cs'. set (w' := fold_left (gstep node ln) (K node) w0) in *.
  assert (NIN : ~ In node (done ++ stack)) by (apply NoDup_remove_2; auto).
  assert (CN : forall c, In c cs -> ~ In c (done ++ node :: stack)).
  { intros c Hc H. apply HI in Hc. destruct Hc as (k & _ & Ck). destruct (W6 c H) as [->|(q & k' & Hq & Cq)]; [apply (RN _ _ Ck)|].
    destruct (parent_one T g W order nodes0 st_0 OD _ _ _ _ _ Ck Cq) as [_ ->]. apply NIN. apply in_app_iff. auto. }
  assert (IN : forall v, In v ((node :: done) ++ cs ++ stack) <-> In v cs \/ In v (done ++ node :: stack)).
  { intros v. cbn [app]. cbn [In]. rewrite !in_app_iff. cbn [In]. tauto. }
  constructor.
  - rewrite KL. auto.
  - intros v l H. destruct (in_dec Nat.eq_dec v cs) as [I|I]; [|apply W2; rewrite <- HU; auto]. apply HI in I. destruct I as (k & Hk & Ck). rewrite (HA k v Hk Ck) in H. injection H as <-.
    destruct (NOK node Hn) as [_ X]. destruct (X k v ln Ck (W2 _ _ Ex)) as (_ & Y & _). auto.
  - rewrite A. intros v. rewrite IN. destruct (in_dec Nat.eq_dec v cs) as [I|I].
    + split; auto. intros _. apply HI in I. destruct I as (k & Hk & Ck). eexists. apply (HA k v Hk Ck).
    + rewrite HU by auto. rewrite <- W3. tauto.
  - intros v l k c Hv Ev Ck. destruct (in_dec Nat.eq_dec v cs) as [I|I].
    + exfalso. apply (CN v I). destruct Hv as [<-|Hv]; apply in_app_iff; [right; left; auto|auto].
    + rewrite HU in Ev by auto. destruct Hv as [<-|Hv].
      * rewrite Ex in Ev. injection Ev as <-. apply HA; auto. eapply (child_facts T g W order); eauto.
      * rewrite HU; [apply W4; auto|]. intros X. apply HI in X. destruct X as (k' & _ & C'). destruct (parent_one T g W order nodes0 st_0 OD _ _ _ _ _ Ck C') as [_ ->]. apply NIN. apply in_app_iff. auto.
  - rewrite A. apply (Permutation_NoDup (l := cs ++ (done ++ node :: stack))).
    + apply Permutation_sym. cbn [app]. apply (Permutation_trans (l' := node :: cs ++ done ++ stack)); [apply perm_skip, Permutation_app_swap_app|].
      rewrite (app_assoc cs done stack), (app_assoc cs done (node :: stack)). apply Permutation_middle.
    + apply NoDup_app_intro; auto.
  - rewrite A. intros v Hv. apply IN in Hv. destruct Hv as [Hv|Hv].
    + right. apply HI in Hv. destruct Hv as (k & _ & Ck). exists node, k. split; auto. left. auto.
    + destruct (W6 v Hv) as [?|(q & k & Hq & Cq)]; auto. right. exists q, k. split; auto. right. auto.
  - rewrite A. apply IN. auto.
  - rewrite A, B. intros v Hv. apply IN in Hv. destruct Hv as [Hv|Hv]; [right; apply in_app_iff; right; apply in_rev in Hv; auto|]. destruct (W8 v Hv); auto. right. apply in_app_iff. auto.
  - rewrite B, C. apply Forall2_app.
    + clear - W9 HU CN W3. assert (X : forall c s, nth_error (w_arg w) c = Some (Some s) -> nth_error (w_arg w') c = Some (Some s)).
      { intros c s H. rewrite HU; auto. intros I. apply (CN c I). apply W3. eauto. }
      eapply Forall2_weaken; [|exact W9]. auto.
    + eapply Forall2_weaken; [|exact D]. cbn. intros c s (k & Hk & Ck & ->). apply HA; auto.
Qed.
Lemma info_loop_ok : forall first ns fuel w done, winv w done -> n - length done < fuel ->
  exists w' done', info_loop T g d first fuel (view first ns w) = Ret (view first ns w') /\ winv w' done' /\ w_stack w' = [] /\ w_nodes w' = trace fuel (w_stack w) (w_nodes w) /\
    (forall l, nth_error (w_arg w) root = Some (Some l) -> nth_error (w_arg w') root = Some (Some l)).
Proof.
  intros first ns. induction fuel as [|fuel IH]; intros w done I HF; [lia|]. cbn [info_loop trace]. unfold view at 1. cbn [w_stack]. destruct (w_stack w) as [|node stack] eqn:ES.
  - exists w, done. split; auto.
  - assert (X : In node (done ++ w_stack w)) by (rewrite ES; apply in_app_iff; right; left; auto). apply (wi_all _ _ I) in X. destruct X as (ln & Ex).
    assert (Hn : node < n) by (rewrite <- (wi_len _ _ I); apply nth_error_Some; congruence).
    cbn [view w_arg w_sub w_nodes]. set (w0 := mkWalk (w_arg w) stack (w_sub w) (w_nodes w)).
    destruct (info_node_ok first ns node ln w0) as (cc & E); auto; [apply (wi_len _ _ I)|apply (wi_lab _ _ I); auto|]. unfold view at 1 in E. cbn [w0 w_arg w_stack w_sub w_nodes] in E. rewrite E. cbn [bind].
    pose proof (winv_step node ln stack w done I ES Ex) as I'. fold w0 in I'. fold w0 in E.
    destruct (IH _ _ I') as (w' & done' & E2 & I2 & S2 & T2 & R2).
    + assert (LB : length (done ++ w_stack w) <= n). { apply NoDup_bounded_length; [apply (wi_nd _ _ I)|]. intros v Hv. apply (wi_all _ _ I) in Hv. destruct Hv as (l & Hl). rewrite <- (wi_len _ _ I). apply nth_error_Some. congruence. }
      rewrite ES, app_length in LB. cbn [length] in *. lia.
    + exists w', done'. fold w0. split; auto. split; auto. split; auto. split.
      * rewrite T2. pose proof (gstep_tstep node ln (K node) w0) as X. cbn [w0 w_stack w_nodes] in X. rewrite <- X. reflexivity.
      * intros l Hl. apply R2. pose proof (gstep_astep node ln (K node) w0) as X. cbn [w0 w_arg w_stack] in X.
        destruct (astep_spec T g W order nodes0 st_0 OD st node ln (K node) (w_arg w) stack (v_adj_NoDup T g node) (wi_len _ _ I)) as (cs' & _ & _ & HI & _ & HU). rewrite <- X in HU. cbn [fst] in HU. rewrite HU; auto.
        intros Y. apply HI in Y. destruct Y as (k & _ & Ck). apply (RN _ _ Ck).
Qed.
Hypothesis HR : root < n.
Hypothesis LK : forall v, v < n -> linked g root v.
Hypothesis NE : Forall (fun fc => fst fc <> []) (v_factors g).

Lemma walk_all : forall w done, winv w done -> w_stack w = [] -> forall v, v < n -> In v done.
Proof.
  intros w done I ES v Hv. assert (IR : In root done) by (pose proof (wi_root _ _ I) as X; rewrite ES, app_nil_r in X; auto).
  assert (G : forall a b, linked g a b -> In a done -> In b done); [|apply (G root v); auto].
  intros a b H. induction H as [a b (k & E)| |]; auto. intros Ia. destruct (edge_bound T g W _ _ _ E) as (Ba & Bb & N).
  assert (AL1 : forall v, In v done <-> exists l, nth_error (w_arg w) v = Some (Some l)) by (intros; rewrite <- (wi_all _ _ I), ES, app_nil_r; tauto).
  destruct (Nat.lt_trichotomy (o a) (o b)) as [LT|[EQ|LT]].
  - assert (C : childf a k = Some b) by (apply (child_edge T g W order); auto). apply AL1. destruct (proj1 (AL1 a) Ia) as (l & El). eexists. apply (wi_kids _ _ I a l k b); auto.
  - exfalso. destruct (od_nth _ _ _ _ _ OD a Ba) as (_ & Ea). destruct (od_nth _ _ _ _ _ OD b Bb) as (_ & Eb). rewrite EQ in Ea. congruence.
  - assert (C : childf b k = Some a) by (apply (child_edge T g W order); split; auto; apply edge_sym; auto).
    destruct (wi_par _ _ I a) as [->|(q & k' & Hq & Cq)]; [rewrite ES, app_nil_r; auto|destruct (RN _ _ C)|]. destruct (parent_one T g W order nodes0 st_0 OD _ _ _ _ _ C Cq) as [_ ->]. auto.
Qed.
Definition NODES : list nat := trace (S n) [root] [].
Lemma label_ok : forall first ns l, l < L root -> exists w y,
  info_loop T g d first (S n) (mkWalk (upd (repeat None n) root (Some l)) [root] [] (if first then [] else ns)) = Ret (view first ns w) /\ w_nodes w = NODES /\ labeling g y /\ consistent T g order st y /\ nth root y 0 = l /\ Forall2 (fun c s => c < n /\ nth c y 0 = s) NODES (w_sub w) /\ (forall v, v < n -> v = root \/ In v NODES) /\ forall v, v < n -> v = root \/ exists q k, childf q k = Some v.
Proof.
  intros first ns l Hl. set (w0 := mkWalk (upd (repeat (@None nat) n) root (Some l)) [root] [] []).
  assert (N0 : forall v a, nth_error (w_arg w0) v = Some (Some a) -> v = root /\ a = l).
  { intros v a H. cbn [w0 w_arg] in H. destruct (Nat.eq_dec v root) as [->|N]; [rewrite nth_error_upd_eq in H by (rewrite repeat_length; auto); split; congruence|]. rewrite nth_error_upd_neq in H by auto. apply nth_error_In in H. apply repeat_spec in H. discriminate. }
  assert (NR : nth_error (w_arg w0) root = Some (Some l)) by (apply nth_error_upd_eq; rewrite repeat_length; auto).
  assert (I0 : winv w0 []).
  { constructor; cbn [w_stack w_nodes w_sub w0 app].
    - unfold w0. cbn [w_arg]. rewrite length_upd. apply repeat_length.
    - intros v a H. apply N0 in H. destruct H as [-> ->]. auto.
    - intros v. split; [intros [<-|[]]; eauto|]. intros (a & H). apply N0 in H. left. symmetry. tauto.
    - intros v a k c [].
    - constructor; [intros []|constructor].
    - intros v [<-|[]]. auto.
    - left. auto.
    - intros v [<-|[]]. auto.
    - constructor. }
  destruct (info_loop_ok first ns (S n) w0 [] I0) as (w & done & E & I & ES & EN & ER); [cbn [length]; lia|].
  pose proof (walk_all w done I ES) as ALL. set (x := w_arg w) in *. set (y := map (fun q => match q with Some a => a | None => 0 end) x).
  assert (NY : forall v, v < n -> nth_error x v = Some (Some (nth v y 0))).
  { intros v Hv. assert (X : exists a, nth_error x v = Some (Some a)) by (apply (wi_all _ _ I); rewrite ES, app_nil_r; auto). destruct X as (a & Ea). rewrite Ea. do 2 f_equal. symmetry. apply nth_error_nth. unfold y. rewrite nth_error_map, Ea. auto. }
  exists w, y. split; [rewrite <- E; reflexivity|]. split; [exact EN|]. split; [|split; [|split; [|split; [|split]]]].
  - unfold labeling, in_shape. apply Forall2_nth_intro; [unfold y; rewrite map_length; apply (wi_len _ _ I)|]. intros v Hv. apply (wi_lab _ _ I). apply NY. unfold y in Hv. rewrite map_length in Hv. rewrite <- (wi_len _ _ I). auto.
  - intros v k c C. destruct (child_facts T g W order _ _ _ C) as (_ & Bv & Bc & _). pose proof (wi_kids _ _ I v _ k c (ALL v Bv) (NY v Bv) C) as X. fold x in X. rewrite (NY c Bc) in X. congruence.
  - pose proof (ER l NR) as X. fold x in X. rewrite (NY root HR) in X. congruence.
  - unfold NODES. cbn [w_stack w_nodes w0] in EN. rewrite <- EN. eapply Forall2_weaken; [|apply (wi_sub _ _ I)]. cbn. intros c s H. assert (Bc : c < n) by (rewrite <- (wi_len _ _ I); apply nth_error_Some; congruence). split; auto. fold x in H. rewrite (NY c Bc) in H. congruence.
  - intros v Hv. unfold NODES. cbn [w_stack w_nodes w0] in EN. rewrite <- EN. apply (wi_nodes _ _ I). rewrite ES, app_nil_r. auto.
  - intros v Hv. destruct (wi_par _ _ I v) as [|(q & k & _ & C)]; [rewrite ES, app_nil_r; auto|auto|eauto].
Qed.

(** ** The value of a walk *)
Lemma rts_root : rts T g order = [root].
Proof.
  assert (IN : forall v, In v (rts T g order) <-> v = root).
  { intros v. unfold rts. fold n. rewrite filter_In, in_seq. split.
    - intros [Hv NB]. destruct (label_ok true [] 0) as (w & y & _ & _ & _ & _ & _ & _ & _ & P); [apply (L_pos T g W); auto|].
      destruct (P v ltac:(lia)) as [|X]; [auto|]. apply (in_allkids T g W order) in X. apply mem_In in X. rewrite X in NB. discriminate.
    - intros ->. split; [lia|]. destruct (mem root (allkids T g order)) eqn:M; auto. apply mem_In in M. apply (in_allkids T g W order) in M. destruct M as (q & k & C). destruct (RN _ _ C). }
  assert (ND : NoDup (rts T g order)) by (unfold rts; apply NoDup_filter, seq_NoDup).
  destruct (rts T g order) as [|a l]; [exfalso; apply (proj2 (IN root)); auto|]. assert (a = root) by (apply IN; left; auto). subst a. destruct l as [|b l]; auto. exfalso. assert (b = root) by (apply IN; right; left; auto). subst b. inversion ND as [|? ? H]. apply H. left. auto.
Qed.
Lemma total_own : forall x, labeling g x -> total OP g x = osum T OP g order x.
Proof.
  intros x Hx. rewrite (total_osum T OP fin OL g W FG order) by auto.
  assert (E : filter (fun k => negb (mem k (allown T g order))) (seq 0 (length (v_factors g))) = []).
  { apply filter_empty. intros k Hk. apply in_seq in Hk. destruct (nth_error (v_factors g) k) as [fc|] eqn:Ek; [|apply nth_error_None in Ek; lia].
    assert (X : In k (allown T g order)) by (apply (allown_all T g W SO order nodes0 st_0 OD k fc); auto; rewrite Forall_forall in NE; apply NE; eapply nth_error_In; eauto). apply mem_In in X. rewrite X. auto. }
  rewrite E. apply (op_unit_r T OP fin OL). apply (osum_fin T OP fin OL g W FG order); auto.
Qed.
Lemma walk_best : forall l y, l < L root -> labeling g y -> consistent T g order st y -> nth root y 0 = l -> best_given OP ACC g root l y /\ total OP g y = vl root l.
Proof.
  intros l y Hl LY CY RY. assert (RS : forall x, nth root x 0 = l -> rsum T OP g order valb x = vl root l).
  { intros x Ex. unfold rsum. rewrite rts_root. unfold big. cbn [fold_left fold_right map]. rewrite Ex. try apply (op_unit_r T OP fin OL). try apply (ol_unit _ _ OL). all: apply (vl_fin T OP ACC fin g order valb st NOK); auto. }
  assert (TY : total OP g y = vl root l) by (rewrite total_own by auto; rewrite <- (RS y RY); apply (osum_rsum_eq T OP ACC fin OL g W FG order nodes0 st_0 OD valb st NOK); auto).
  split; auto. split; auto. split; auto. intros z LZ RZ. rewrite TY, total_own by auto. rewrite <- (RS z RZ). apply (osum_rsum T OP ACC fin OL AL g W FG order nodes0 st_0 OD valb st NOK); auto.
Qed.

(** ** getNodeInfo and its use *)
Lemma order_states_ok : forall l y sub, labeling g y -> nth root y 0 = l -> Forall2 (fun c s => c < n /\ nth c y 0 = s) NODES sub -> (forall v, v < n -> v = root \/ In v NODES) ->
  order_states T g root NODES l sub = Ret y.
Proof.
  intros l y sub LY RY FS ALL. unfold order_states. fold n. rewrite wr_Ret by (rewrite repeat_length; auto). cbn [bind]. pose proof (Forall2_len _ _ _ _ _ FS) as LS.
  assert (G : forall j, j <= length sub -> exists o', foldM (fun o k => v <- rd NODES k ;; a <- rd sub k ;; wr o v a) (seq 0 j) (upd (repeat 0 n) root l) = Ret o' /\ length o' = n /\
    forall v, v < n -> v = root \/ (exists i, i < j /\ nth_error NODES i = Some v) -> nth v o' 0 = nth v y 0).
  { induction j as [|j IH]; intros Hj.
    - eexists. split; [reflexivity|]. split; [rewrite length_upd; apply repeat_length|]. intros v Hv [->|(i & Hi & _)]; [|lia]. rewrite nth_upd_eq; auto. rewrite repeat_length. auto.
    - destruct IH as (o1 & E & L1 & H1); [lia|]. rewrite seq_S, foldM_app, E. cbn [bind foldM]. rewrite Nat.add_0_l.
      destruct (nth_error NODES j) as [c|] eqn:EC; [|apply nth_error_None in EC; lia]. destruct (Forall2_nth_l _ _ _ _ _ _ _ FS EC) as (s & Es & Bc & Ec).
      rewrite (rd_Ret _ _ _ _ EC), (rd_Ret _ _ _ _ Es). cbn [bind]. rewrite wr_Ret by lia. cbn [bind]. eexists. split; [reflexivity|]. split; [rewrite length_upd; auto|].
      intros v Hv H. destruct (Nat.eq_dec v c) as [->|N]; [rewrite nth_upd_eq by lia; auto|]. rewrite nth_upd_neq by auto. apply H1; auto. destruct H as [H|(i & Hi & Ei)]; auto. right. exists i. split; auto. assert (i <> j) by congruence. lia. }
  destruct (G (length sub) (le_n _)) as (o' & E & L1 & H). rewrite E. f_equal. apply (nth_ext _ _ 0 0); [rewrite L1; symmetry; apply (Forall2_len _ _ _ _ _ LY)|].
  intros v Hv. rewrite L1 in Hv. apply H; auto. destruct (ALL v Hv) as [|I]; auto. right. apply In_nth_error in I. destruct I as (i & Ei). exists i. split; auto. rewrite <- LS. apply nth_error_Some. congruence.
Qed.
Theorem node_info_ok : exists values substates, getNodeInfo T g d root = Ret (values, substates, NODES) /\ length values = L root /\ length substates = L root /\
  forall l, l < L root -> exists sub y, nth_error substates l = Some sub /\ sub = at_vars y NODES /\ order_states T g root NODES l sub = Ret y /\ best_given OP ACC g root l y /\ nth_error values l = Some (total OP g y).
Proof.
  unfold getNodeInfo. rewrite (rd_nth _ _ root 0) by auto. cbn [bind]. fold (L root).
  assert (G : forall j, j <= L root -> exists values substates, foldM (info_label T g d root) (seq 0 j) ([], [], []) = Ret (values, substates, if j =? 0 then [] else NODES) /\ length values = j /\ length substates = j /\
    forall l, l < j -> exists sub y, nth_error substates l = Some sub /\ sub = at_vars y NODES /\ order_states T g root NODES l sub = Ret y /\ best_given OP ACC g root l y /\ nth_error values l = Some (total OP g y)).
  { induction j as [|j IH]; intros Hj; [exists [], []; cbn; repeat split; auto; intros; lia|]. destruct IH as (vs & ss & E & L1 & L2 & H); [lia|]. rewrite seq_S, foldM_app, E. cbn [bind foldM]. rewrite Nat.add_0_l.
    unfold info_label. fold n. rewrite wr_Ret by (rewrite repeat_length; auto). cbn [bind]. rewrite DV. destruct (NOK root HR) as [X _]. destruct (X j) as (RV & _); [lia|]. rewrite RV. cbn [bind].
    destruct (label_ok (j =? 0) NODES j) as (w & y & EL & EN & LY & CY & RY & FS & ALL & _); [lia|]. rewrite EL. cbn [bind].
    exists (vs ++ [vl root j]), (ss ++ [w_sub w]). cbn [Nat.eqb]. split.
    - cbn [view w_sub w_nodes]. rewrite EN. destruct (j =? 0); auto.
    - rewrite !app_length. cbn [length]. split; [lia|]. split; [lia|]. intros l Hl. destruct (Nat.eq_dec l j) as [->|N].
      + exists (w_sub w), y. rewrite !nth_error_app2, L1, L2, Nat.sub_diag by lia. destruct (walk_best j y) as [B TY]; auto. split; auto. split; [|split; [apply order_states_ok; auto|]].
        { clear - FS. induction FS as [|c s l1 l2 [_ E] F IH]; auto. cbn [at_vars map]. rewrite <- E. f_equal. auto. } split; auto. rewrite TY. auto.
      + destruct (H l) as (sub & z & A1 & A0 & A2 & A3 & A4); [lia|]. exists sub, z. rewrite !nth_error_app1 by lia. auto 10. }
  destruct (G (L root) (le_n _)) as (vs & ss & E & L1 & L2 & H). exists vs, ss. rewrite E. pose proof (L_pos T g W root HR) as P. destruct (L root =? 0) eqn:Z; [apply Nat.eqb_eq in Z; lia|]. auto.
Qed.
Lemma nodes_all : (forall v, v < n -> v = root \/ In v NODES) /\ Forall (fun v => v < n) NODES.
Proof.
  destruct (label_ok true [] 0) as (w & y & _ & _ & _ & _ & _ & FS & ALL & _); [apply (L_pos T g W); auto|]. split; auto. clear - FS. induction FS as [|c s l1 l2 [B _] F IH]; constructor; auto.
Qed.
End Walk.
