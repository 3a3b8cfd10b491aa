(** Dynamic programming on a tentacle: connected models without cycles are trees with any root. *)
From Coq Require Import Relations Permutation.
From Verif Require Import Base Values GmView GmViewSpec GmProofs GmViewProofs IcmProofs ShapeSpec ShapeProofs FactorGraphModel FactorGraphSpec MpModel MpSpec SubmodelModel SubmodelProps DpModel DpOrder DpInfer DpProofs DpNodeModel TentacleSpec.
From Verif Require DpSpec.
From Verif Require Import DpNodeProofs.
#[local] Arguments nth_error : simpl never.

Lemma mapM_snoc : forall A B (f : A -> outcome B) l a, mapM f (l ++ [a]) = (r <- mapM f l ;; b <- f a ;; Ret (r ++ [b])).
Proof. intros A B f l a. induction l as [|x l IH]; cbn [app mapM]; [destruct (f a); auto|]. destruct (f x); cbn [bind]; auto. rewrite IH. destruct (mapM f l); cbn [bind]; auto. destruct (f a); auto. Qed.

(** ** Simple paths *)
Section Path.
Variable A : Type.
Variable eqd : forall a b : A, {a = b} + {a <> b}.
Variable R : A -> A -> Prop.
Lemma path_suffix : forall l1 (l2 : list A), path R (l1 ++ l2) -> path R l2.
Proof. induction l1 as [|a l1 IH]; intros l2 H; auto. apply IH. cbn [app] in H. destruct (l1 ++ l2) as [|b t]; [exact I|]. cbn [path] in H. tauto. Qed.
Lemma last_cons : forall (l : list A) a d, last (a :: l) d = last l a.
Proof. induction l as [|b l IH]; intros a d; auto. change (last (a :: b :: l) d) with (last (b :: l) d). rewrite (IH b d). symmetry. apply IH. Qed.
Lemma last_app_cons : forall (l1 l2 : list A) a d, last (l1 ++ a :: l2) d = last l2 a.
Proof. induction l1 as [|b l1 IH]; intros l2 a d; [apply last_cons|]. cbn [app]. rewrite last_cons. apply IH. Qed.
Lemma simple_path : forall a b, clos_refl_trans A R a b -> exists l, NoDup (a :: l) /\ path R (a :: l) /\ last l a = b.
Proof.
  intros a b H. apply clos_rt_rt1n in H. induction H as [a|a c b Rac _ (l & ND & P & LB)].
  - exists []. split; [constructor; [intros []|constructor]|]. split; auto. exact I.
  - destruct (in_dec eqd a (c :: l)) as [Ia|NI].
    + apply in_split in Ia. destruct Ia as (l1 & l2 & E). exists l2. rewrite E in *. split; [clear - ND; induction l1 as [|x l1 IH]; auto; inversion ND; auto|]. split; [apply path_suffix with l1; auto|].
      rewrite <- LB. destruct l1 as [|c' l1]; cbn [app] in E; injection E as -> ->; auto. symmetry. apply last_app_cons.
    + exists (c :: l). split; [constructor; auto|]. split; [cbn [path]; auto|]. rewrite <- LB. apply last_cons.
Qed.
End Path.

Section Tree.
Variable T : Type.
Variable g : gmv T.
Hypothesis W : wf_gmv g.
Notation E := (FactorGraphSpec.edge (fgraph_of T g)).
Lemma incident_fac : forall f v, incident (fgraph_of T g) f v <-> exists fc, nth_error (v_factors g) f = Some fc /\ In v (fst fc).
Proof.
  intros f v. unfold incident, fgraph_of. cbn [g_fac]. rewrite nth_error_map. destruct (nth_error (v_factors g) f) as [fc|]; cbn [option_map]; split.
  - intros (vs & X & H). injection X as <-. eauto. - intros (fc' & X & H). injection X as <-. eauto.
  - intros (vs & X & _). discriminate. - intros (fc & X & _). discriminate.
Qed.
Lemma node_dec : forall a b : node, {a = b} + {a <> b}.
Proof. decide equality; apply Nat.eq_dec. Qed.
Lemma edge_incident : forall k u v, DpSpec.edge g k u v -> incident (fgraph_of T g) k u /\ incident (fgraph_of T g) k v.
Proof. intros k u v (fc & X & H). split; apply incident_fac; exists fc; split; auto; destruct H as [-> | ->]; cbn; auto. Qed.

(** Without a cycle of variables and factors, the factors of two variables form a forest. *)
Lemma acyclic_forest : acyclic g -> DpSpec.forest g.
Proof.
  intros AC k u v EK P. destruct (edge_bound T g W _ _ _ EK) as (_ & _ & N).
  set (R := fun a b => E a b /\ a <> NF k /\ b <> NF k).
  assert (P' : clos_refl_trans node R (NV u) (NV v)).
  { clear EK N. induction P as [a b (j & NJ & EJ)| |].
    - destruct (edge_incident _ _ _ EJ) as [I1 I2]. apply rt_trans with (NF j); apply rt_step; unfold R; cbn; (split; [auto|split; congruence]).
    - apply rt_refl.
    - eapply rt_trans; eauto. }
  destruct (simple_path node node_dec R _ _ P') as (l & ND & PA & LB). destruct (edge_incident _ _ _ EK) as [I1 I2].
  assert (NK : forall x t, path R (x :: t) -> t <> [] -> ~ In (NF k) (x :: t)).
  { clear. intros x t. revert x. induction t as [|y t IH]; intros x PA NT; [congruence|]. cbn [path] in PA. destruct PA as [(_ & N1 & N2) PA]. destruct t as [|z t].
    - intros [X|[X|[]]]; congruence.
    - intros [X|X]; [congruence|]. apply (IH y PA); [discriminate|auto]. }
  assert (NL : l <> []) by (intros ->; cbn in LB; congruence).
  assert (PE : forall l, path R l -> path E l).
  { clear. induction l as [|x l IH]; [intros _; exact I|]. intros PA. destruct l as [|y l]; [exact I|]. cbn [path] in PA. destruct PA as [[X _] PA]. split; [exact X|exact (IH PA)]. }
  apply (AC (NF k :: NV u :: l)). split; [constructor; auto|]. split; [destruct l; [congruence|cbn; lia]|]. split; [split; [exact I1|exact (PE (NV u :: l) PA)]|].
  intros a t X. injection X as <- <-. rewrite last_cons, LB. exact I2.
Qed.

Hypothesis SO : DpSpec.second_order g.
Lemma connected_linked : connected g -> forall u v, u < length (v_labels g) -> v < length (v_labels g) -> DpSpec.linked g u v.
Proof.
  intros CN u v Hu Hv. pose proof (CN (NV u) (NV v) Hu Hv) as P.
  assert (G : forall a b, clos_refl_trans_n1 node E a b -> a = NV u -> match b with NV w => DpSpec.linked g u w | NF f => exists w, incident (fgraph_of T g) f w /\ DpSpec.linked g u w end).
  { intros a b H Ha. subst a. induction H as [|b c Hbc H IH]; [apply rt_refl|]. destruct b as [w|f], c as [w'|f']; cbn in Hbc; try contradiction; [exists w; auto|].
    destruct IH as (w & Iw & Lw). destruct (Nat.eq_dec w w') as [->|N]; auto. eapply rt_trans; [exact Lw|]. apply rt_step. exists f.
    apply incident_fac in Iw. apply incident_fac in Hbc. destruct Iw as (fc & Ef & I1). destruct Hbc as (fc' & Ef' & I2). rewrite Ef in Ef'. injection Ef' as <-. exists fc. split; auto.
    pose proof SO as SO'. unfold DpSpec.second_order in SO'. rewrite Forall_forall in SO'. specialize (SO' fc (nth_error_In _ _ Ef)). destruct (fst fc) as [|x [|y [|? ?]]]; cbn [length In] in *; try lia; try tauto.
    destruct I1 as [<-|[<-|[]]], I2 as [<-|[<-|[]]]; auto; congruence. }
  apply clos_rt_rtn1 in P. apply (G _ _ P eq_refl).
Qed.
Lemma connected_nonempty : connected g -> 0 < length (v_labels g) -> Forall (fun fc => fst fc <> []) (v_factors g).
Proof.
  intros CN H0. apply Forall_forall. intros fc Hf. apply In_nth_error in Hf. destruct Hf as (k & Ek). intros EF.
  assert (Hk : k < length (v_factors g)) by (apply nth_error_Some; congruence). pose proof (CN (NF k) (NV 0) Hk H0) as P. apply clos_rt_rt1n in P. inversion P as [|y z X]; subst. destruct y as [w|f]; cbn in X; [|contradiction].
  apply incident_fac in X. destruct X as (fc' & Ef & I1). rewrite Ek in Ef. injection Ef as <-. rewrite EF in I1. destruct I1.
Qed.
Lemma connected_roots : connected g -> forall r, r < length (v_labels g) -> DpSpec.roots_ok g [r].
Proof.
  intros CN r Hr. split; [constructor; auto|]. split; [constructor; constructor|]. intros v Hv. exists r. split; [left; auto|]. apply connected_linked; auto. cbn in Hv. lia.
Qed.
End Tree.

(** ** The solvers are exact *)
Section Exact.
Variable T : Type.
Variable OP : oper T.
Variable ACC : accum T.
Variable fin : T -> Prop.
Hypothesis OL : op_laws fin OP.
Hypothesis AL : acc_laws fin OP ACC.
Hypothesis AS : acc_select fin ACC.

Lemma maxFactorOrder_le : forall (gm : gmv T) D, order_at_most D gm -> maxFactorOrder gm <= D.
Proof.
  intros gm D H. unfold maxFactorOrder. assert (G : forall fs m, m <= D -> Forall (fun fc : list nat * (list nat -> T) => length (fst fc) <= D) fs -> fold_left (fun m fc => Nat.max m (length (fst fc))) fs m <= D); [|apply G; auto; lia].
  induction fs as [|fc fs IH]; intros m Hm F; auto. inversion F; subst. cbn [fold_left]. apply IH; auto. lia.
Qed.
Theorem dp_rooted_exact : forall bp, rooted_exact fin OP ACC 2 (tent_rooted OP ACC bp).
Proof.
  intros bp gm r WG FG SO AC CN Hr. unfold tent_rooted. pose proof (maxFactorOrder_le gm 2 SO) as MX. apply Nat.leb_le in MX. rewrite MX. clear MX.
  pose proof (connected_roots T gm SO CN r Hr) as RO. pose proof (acyclic_forest T gm WG AC) as FO.
  destruct (dp_new_ok T gm WG [r] RO FO) as (order & nodes & st & EN & OD). unfold dp_rooted. rewrite EN. cbn [bind].
  pose proof (root_first T gm r _ Hr EN) as R0. cbn [d_order] in R0.
  match goal with |- context [dp_infer T OP ACC gm ?d0] => destruct (infer_ok T OP ACC fin OL AL AS gm WG FG order nodes st OD SO d0) as (d & EI & DO & DN & DS & V1 & T1 & NOK) end; auto; [apply val0_shaped|apply (st0_shaped T gm WG order nodes st OD)|].
  rewrite EI. cbn [bind].
  assert (RN : forall q k, child_of T gm order q k <> Some r). { intros q k C. destruct (child_facts T gm WG order _ _ _ C) as (_ & _ & _ & _ & LT). lia. }
  destruct (node_info_ok T OP ACC fin OL AL gm WG FG SO order nodes st OD (d_val d) (d_st d) NOK d DO eq_refl eq_refl r RN Hr) as (vals & subs & EG & LV & LS & H).
  { intros v Hv. apply connected_linked; auto. }
  { apply connected_nonempty; auto. lia. }
  rewrite EG. cbn [bind].
  set (NS := NODES T gm order r) in *.
  assert (G : forall j, j <= length subs -> exists cands, mapM (fun i => sub <- rd subs i ;; order_states T gm r NS i sub) (seq 0 j) = Ret cands /\ length cands = j /\
    forall l, l < j -> best_given OP ACC gm r l (nth l cands []) /\ nth_error vals l = Some (total OP gm (nth l cands []))).
  { induction j as [|j IH]; intros Hj; [exists []; split; auto; split; auto; intros; lia|]. destruct IH as (cs & E & L1 & H1); [lia|]. destruct (H j) as (sub & y & A1 & _ & A2 & A3 & A4); [lia|].
    exists (cs ++ [y]). rewrite seq_S, mapM_snoc, E. cbn [bind]. rewrite Nat.add_0_l, (rd_Ret _ _ _ _ A1). cbn [bind]. rewrite A2. cbn [bind]. split; auto. rewrite app_length. cbn [length]. split; [lia|]. intros l Hl. destruct (Nat.eq_dec l j) as [->|N].
    - rewrite app_nth2, L1, Nat.sub_diag by lia. cbn [nth]. auto.
    - rewrite app_nth1 by lia. apply H1. lia. }
  destruct (G (length subs) (le_n _)) as (cands & EM & LC & HC). rewrite EM. cbn [bind]. exists vals, cands. split; auto. split; auto. split; [rewrite LC; auto|]. intros l Hl. apply HC. rewrite LS. auto.
Qed.
Theorem dp_free_exact : forall bp, free_exact fin OP ACC 2 (tent_free OP ACC bp).
Proof.
  intros bp gm WG FG SO AC CN H0. unfold tent_free. pose proof (maxFactorOrder_le gm 2 SO) as MX. apply Nat.leb_le in MX. rewrite MX. clear MX.
  pose proof (connected_roots T gm SO CN 0 H0) as RO. pose proof (acyclic_forest T gm WG AC) as FO.
  destruct (dp_new_ok T gm WG [0] RO FO) as (order & nodes & st & EN & OD). unfold dp_free. rewrite EN. cbn [bind].
  match goal with |- context [dp_infer T OP ACC gm ?d0] => destruct (infer_ok T OP ACC fin OL AL AS gm WG FG order nodes st OD SO d0) as (d & EI & DO & DN & DS & V1 & T1 & NOK) end; auto; [apply val0_shaped|apply (st0_shaped T gm WG order nodes st OD)|].
  rewrite EI. cbn [bind]. destruct (arg_ok T OP ACC fin OL AL AS gm WG FG SO order nodes st OD (d_val d) (d_st d) NOK d DO eq_refl eq_refl DS) as (x & EA & OX).
  rewrite EA. cbn [bind]. rewrite (mapM_get _ _ x eq_refl). eauto.
Qed.
End Exact.
