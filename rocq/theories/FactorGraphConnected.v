(** Proofs about FactorGraph::isConnected. *)
From Coq Require Import Sorted Relations.
From Verif Require Import Base PartitionModel PartitionProps FactorGraphModel FactorGraphSpec FactorGraphProofs.
#[local] Arguments nth_error : simpl never.

Section N.
Variable g : fgraph.
Hypothesis WF : wf_fgraph g.
Hypothesis NE : Forall (fun vs => vs <> []) (g_fac g).
Notation nv := (length (g_adj g)).
Notation nf := (length (g_fac g)).
Notation vars := (vars g).

Definition merge_at (fj : nat * nat) : part_op := PMerge (nth (snd fj - 1) (vars (fst fj)) 0) (nth (snd fj) (vars (fst fj)) 0).
Definition pos : list (nat * nat) := flat_map (fun f => map (fun j => (f, j)) (seq 1 (length (vars f) - 1))) (seq 0 nf).
Definition merges : list part_op := map merge_at pos.

Lemma pos_iff : forall f j, In (f, j) pos <-> f < nf /\ 1 <= j < length (vars f).
Proof.
  intros f j. unfold pos. rewrite in_flat_map. split.
  - intros [x [H1 H2]]. apply in_map_iff in H2. destruct H2 as [k [H2 H3]]. injection H2 as -> ->. apply in_seq in H1, H3. lia.
  - intros [H1 H2]. exists f. split; [apply in_seq; lia|]. apply in_map. apply in_seq. lia.
Qed.
Lemma merges_legal : legal nv merges.
Proof.
  unfold merges. assert (Q : forall l, (forall p, In p l -> In p pos) -> legal nv (map merge_at l)).
  { induction l as [|[f j] l IH]; intros H; cbn [map legal]; auto. unfold merge_at at 1. cbn [fst snd].
    assert (I : In (f, j) pos) by (apply H; left; auto). apply pos_iff in I.
    split; [|split]; [eapply (vars_lt g WF f), nth_In; lia|eapply (vars_lt g WF f), nth_In; lia|]. apply IH. intros. apply H. right. auto. }
  apply Q. auto.
Qed.
Lemma merges_spec : forall a b, In (a, b) (spec_merges [] merges) <-> exists f j, In (f, j) pos /\ a = nth (j - 1) (vars f) 0 /\ b = nth j (vars f) 0.
Proof.
  intros a b. unfold merges.
  assert (Q : forall l acc, In (a, b) (spec_merges acc (map merge_at l)) <-> In (a, b) acc \/ exists f j, In (f, j) l /\ a = nth (j - 1) (vars f) 0 /\ b = nth j (vars f) 0).
  { induction l as [|[f j] l IH]; intros acc; cbn [map spec_merges].
    - split; auto. intros [H|[? [? [[] _]]]]. auto.
    - unfold merge_at at 1. cbn [fst snd spec_merges]. rewrite IH. cbn [In]. split.
      + intros [[H|H]|[f' [j' [H1 H2]]]]; auto. { injection H as <- <-. right. exists f, j. auto. } right. exists f', j'. auto.
      + intros [H|[f' [j' [[H1|H1] [H2 H3]]]]]; auto. { injection H1 as -> ->. subst. auto. } right. exists f', j'. auto. }
  rewrite Q. cbn [In]. tauto.
Qed.
Lemma merges_elements : spec_elements nv merges = nv.
Proof. unfold merges. generalize pos as l. induction l as [|[f j] l IH]; auto. Qed.

Lemma same_joined : forall a b, same_set merges a b <-> joined g a b.
Proof.
  intros a b. unfold same_set, joined. split; intro H.
  - induction H as [x y H| | |]; [|apply rst_refl|apply rst_sym; auto|eapply rst_trans; eauto]. apply rst_step.
    apply merges_spec in H. destruct H as [f [j [H1 [-> ->]]]]. apply pos_iff in H1. exists f. rewrite !incident_iff.
    split; (split; [lia|apply nth_In; lia]).
  - assert (Q : forall f j, f < nf -> j < length (vars f) -> same_set merges (nth 0 (vars f) 0) (nth j (vars f) 0)).
    { intros f j Hf. induction j as [|j IH]; intros Hj; [apply rst_refl|]. eapply rst_trans; [apply IH; lia|]. apply rst_step. apply merges_spec. exists f, (S j).
      rewrite pos_iff. replace (S j - 1) with j by lia. split; [lia|auto]. }
    induction H as [x y H| | |]; [|apply rst_refl|apply rst_sym; auto|eapply rst_trans; eauto].
    destruct H as [f [H1 H2]]. apply incident_iff in H1, H2. destruct H1 as [F H1], H2 as [_ H2].
    apply (In_nth _ _ 0) in H1, H2. destruct H1 as [i [I1 <-]], H2 as [j [J1 <-]].
    eapply rst_trans; [apply rst_sym; apply Q; auto|apply Q; auto].
Qed.

Lemma run_eq : foldM (fun p i =>
         n <- orderOf g i ;;
         if n =? 0 then Undef else
         foldM (fun p j => a <- variableOfFactor g i (j - 1) ;; b <- variableOfFactor g i j ;; part_merge p a b)
               (seq 1 (n - 1)) p)
       (seq 0 nf) (part_init nv) = part_run nv merges.
Proof.
  unfold part_run, merges. rewrite foldM_map. unfold pos. rewrite foldM_flat_map. apply foldM_ext. intros f p Hf. apply in_seq in Hf.
  rewrite orderOf_Ret by lia. cbn [bind]. destruct (Nat.eqb_spec (length (vars f)) 0) as [Z|Z].
  { exfalso. rewrite Forall_forall in NE. apply (NE (vars f)). { unfold vars. apply nth_In. lia. } apply length_zero_iff_nil. auto. }
  rewrite foldM_map. apply foldM_ext. intros j p' Hj. apply in_seq in Hj. rewrite !variableOfFactor_eq by lia.
  rewrite (rd_nth _ (vars f) (j - 1) 0) by lia. cbn [bind]. rewrite (rd_nth _ (vars f) j 0) by lia. reflexivity.
Qed.

Lemma isConnected_spec : exists b reps, isConnected g = Ret (b, reps) /\
  (b = true <-> 0 < nv /\ forall u v, u < nv -> v < nv -> joined g u v) /\
  StronglySorted lt reps /\ (forall r, In r reps -> r < nv) /\
  (forall v, v < nv -> exists! r, In r reps /\ joined g v r).
Proof.
  unfold isConnected. change (numberOfVariables g) with nv. change (numberOfFactors g) with nf. destruct (Nat.eqb_spec nv 0) as [Z|Z].
  { exists false, []. split; auto. split; [split; [discriminate|lia]|]. split; [constructor|]. split; [intros r []|]. intros; lia. }
  rewrite run_eq. destruct (C02_counts_and_labelings nv merges merges_legal) as [p [reps [rl [labels [H1 [H2 [_ [_ [_ [H3 [H4 [H5 [H6 _]]]]]]]]]]]]].
  rewrite merges_elements in *. rewrite H1. cbn [bind]. rewrite H2. cbn [bind]. rewrite H3, Nat.leb_refl, Nat.sub_diag. cbn [repeat]. rewrite app_nil_r.
  assert (H6' : forall v, v < nv -> exists! r, In r reps /\ joined g v r).
  { intros v Hv. destruct (H6 v Hv) as [r [[R1 R2] R3]]. exists r. split; [split; auto; apply same_joined; auto|]. intros r' [Q1 Q2]. apply R3. split; auto. apply same_joined; auto. }
  eexists. exists reps. split; [reflexivity|]. split; [|auto]. rewrite Nat.eqb_eq. split.
  - intros L. split; [lia|]. destruct reps as [|r [|? ?]]; try discriminate. intros u v Hu Hv.
    destruct (H6' u Hu) as [x [[[<-|[]] X2] _]]. destruct (H6' v Hv) as [y [[[<-|[]] Y2] _]]. eapply rst_trans; [exact X2|apply rst_sym; exact Y2].
  - intros [P J]. destruct reps as [|r [|s t]]; auto.
    + destruct (H6' 0) as [x [[[] _] _]]. lia.
    + exfalso. destruct (H6' r) as [x [_ X]]. { apply H5. left; auto. }
      assert (X1 : x = r) by (apply X; split; [left; auto|apply rst_refl]). assert (X2 : x = s).
      { apply X. split; [right; left; auto|]. apply J; apply H5; [left|right; left]; auto. }
      apply StronglySorted_inv in H4. destruct H4 as [_ H4]. inversion H4. lia.
Qed.
End N.
