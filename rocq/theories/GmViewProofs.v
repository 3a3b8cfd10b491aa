(** Algebra of the value of a labeling: splitting into the factors that touch some variables and the rest. *)
From Verif Require Import Base Values GmView GmViewSpec ShapeSpec ShapeProofs GmProofs.
From Coq Require Import Sorted Permutation.
#[local] Arguments nth_error : simpl never.

Section V.
Variable T : Type.
Variable OP : oper T.

Lemma mapM_rd : forall (x : list nat) l, Forall (fun v => v < length x) l -> mapM (rd x) l = Ret (at_vars x l).
Proof.
  intros x l H. induction H as [|v l Hv H IH]; auto. cbn [mapM at_vars map]. rewrite (rd_nth _ x v 0 Hv). cbn [bind]. rewrite IH. auto.
Qed.

Lemma fvalue_Ret : forall (fc : list nat * (list nat -> T)) x, Forall (fun v => v < length x) (fst fc) ->
  fvalue T fc x = Ret (snd fc (at_vars x (fst fc))).
Proof. intros fc x H. unfold fvalue. rewrite mapM_rd by auto. auto. Qed.

Lemma labeling_length : forall (g : gmv T) x, labeling g x -> length x = length (v_labels g).
Proof. intros g x H. apply in_shape_length. auto. Qed.

Lemma wf_nth : forall (g : gmv T) k fc, wf_gmv g -> nth_error (v_factors g) k = Some fc ->
  StronglySorted lt (fst fc) /\ Forall (fun v => v < length (v_labels g)) (fst fc).
Proof.
  intros g k fc [H _] E. rewrite Forall_forall in H. apply H. eapply nth_error_In; eauto.
Qed.

Lemma v_evaluate_total : forall g x, wf_gmv g -> length x = length (v_labels g) ->
  v_evaluate T OP g x = Ret (total OP g x).
Proof.
  intros g x [H _] Hx. unfold v_evaluate, total. generalize (o_neutral OP). induction H as [|fc fcs [_ Hf] H IH]; intros acc; auto.
  cbn [foldM fold_left]. rewrite fvalue_Ret by (rewrite Hx; auto). cbn [bind]. apply IH.
Qed.

(** Value of the k-th factor. *)
Definition val (g : gmv T) (k : nat) (x : list nat) : T :=
  match nth_error (v_factors g) k with Some fc => snd fc (at_vars x (fst fc)) | None => o_neutral OP end.

(** Combination over a list of factor numbers. *)
Definition big (l : list nat) (f : nat -> T) : T := fold_right (fun k acc => o_op OP (f k) acc) (o_neutral OP) l.

Lemma big_cons : forall k l f, big (k :: l) f = o_op OP (f k) (big l f). Proof. reflexivity. Qed.

Variable fin : T -> Prop.
Hypothesis OL : op_laws fin OP.

Lemma big_fin : forall l f, (forall k, In k l -> fin (f k)) -> fin (big l f).
Proof.
  intros l f H. induction l as [|k l IH]; cbn; [apply (ol_neutral _ _ OL)|].
  apply (ol_op _ _ OL); [apply H; left; auto|apply IH; intros; apply H; right; auto].
Qed.
Lemma op_unit_r : forall a, fin a -> o_op OP a (o_neutral OP) = a.
Proof. intros a H. rewrite (ol_comm _ _ OL) by (auto; apply (ol_neutral _ _ OL)). apply (ol_unit _ _ OL). auto. Qed.
Lemma big_app : forall l1 l2 f, (forall k, In k (l1 ++ l2) -> fin (f k)) -> big (l1 ++ l2) f = o_op OP (big l1 f) (big l2 f).
Proof.
  intros l1 l2 f. induction l1 as [|k l1 IH]; intros H; cbn [app]; rewrite ?big_cons.
  - cbn [big fold_right]. rewrite (ol_unit _ _ OL); auto. apply big_fin. auto.
  - rewrite IH by (intros; apply H; right; auto). rewrite (ol_assoc _ _ OL); auto.
    + apply H. left. auto.
    + apply big_fin. intros. apply H. right. apply in_or_app. auto.
    + apply big_fin. intros. apply H. right. apply in_or_app. auto.
Qed.
Lemma big_perm : forall l1 l2 f, Permutation l1 l2 -> (forall k, In k l1 -> fin (f k)) -> big l1 f = big l2 f.
Proof.
  intros l1 l2 f P. induction P as [|k l1 l2 P IH|a b l|l1 l2 l3 P1 IH1 P2 IH2]; intros H; auto.
  - rewrite !big_cons. rewrite IH; auto. intros. apply H. right. auto.
  - rewrite !big_cons. assert (fin (f a)) by (apply H; right; left; auto). assert (fin (f b)) by (apply H; left; auto).
    assert (fin (big l f)) by (apply big_fin; intros; apply H; right; right; auto).
    rewrite !(ol_assoc _ _ OL) by auto. f_equal. apply (ol_comm _ _ OL); auto.
  - rewrite IH1 by auto. apply IH2. intros k Hk. apply H. eapply Permutation_in; [apply Permutation_sym|]; eauto.
Qed.
Lemma big_ext : forall l f g, (forall k, In k l -> f k = g k) -> big l f = big l g.
Proof.
  intros l f g H. induction l as [|k l IH]; auto. rewrite !big_cons. rewrite H by (left; auto). f_equal. apply IH. intros. apply H. right. auto.
Qed.

Lemma big_fold_left : forall l f acc, fin acc -> (forall k, In k l -> fin (f k)) ->
  fold_left (fun acc k => o_op OP (f k) acc) l acc = o_op OP (big l f) acc.
Proof.
  induction l as [|k l IH]; intros f acc Ha H; cbn [fold_left]; rewrite ?big_cons.
  - cbn [big fold_right]. rewrite (ol_unit _ _ OL); auto.
  - assert (fin (f k)) by (apply H; left; auto). assert (fin (big l f)) by (apply big_fin; intros; apply H; right; auto).
    rewrite IH; [|apply (ol_op _ _ OL); auto|intros; apply H; right; auto].
    rewrite (ol_assoc _ _ OL) by auto. f_equal. apply (ol_comm _ _ OL); auto.
Qed.

Lemma val_fin : forall g k x, wf_gmv g -> fin_gmv fin g -> labeling g x -> fin (val g k x).
Proof.
  intros g k x W F L. unfold val. destruct (nth_error (v_factors g) k) as [fc|] eqn:E; [|apply (ol_neutral _ _ OL)].
  unfold fin_gmv in F. rewrite Forall_forall in F. apply F; auto. eapply nth_error_In; eauto.
Qed.

Lemma total_big : forall g x, wf_gmv g -> fin_gmv fin g -> labeling g x ->
  total OP g x = big (seq 0 (length (v_factors g))) (fun k => val g k x).
Proof.
  intros g x W F L.
  assert (E : total OP g x = fold_left (fun acc k => o_op OP (val g k x) acc) (seq 0 (length (v_factors g))) (o_neutral OP)).
  { unfold total. generalize (o_neutral OP) as acc.
    assert (G : forall l acc s, (forall k fc, nth_error l k = Some fc -> nth_error (v_factors g) (s + k) = Some fc) ->
       fold_left (fun acc fc => o_op OP (snd fc (at_vars x (fst fc))) acc) l acc =
       fold_left (fun acc k => o_op OP (val g k x) acc) (seq s (length l)) acc).
    { induction l as [|fc l IH]; intros acc s H; auto. cbn [fold_left length seq].
      assert (val g s x = snd fc (at_vars x (fst fc))) as ->.
      { unfold val. rewrite <- (Nat.add_0_r s). rewrite (H 0 fc eq_refl). auto. }
      apply IH. intros k fc' E. rewrite Nat.add_succ_comm. apply H. auto. }
    intros acc. apply G. auto. }
  rewrite E, big_fold_left, op_unit_r; auto.
  - apply big_fin. intros. apply val_fin; auto.
  - apply (ol_neutral _ _ OL).
  - intros. apply val_fin; auto.
Qed.

Lemma total_fin : forall g x, wf_gmv g -> fin_gmv fin g -> labeling g x -> fin (total OP g x).
Proof. intros. rewrite total_big by auto. apply big_fin. intros. apply val_fin; auto. Qed.

(** A set of factor numbers and the rest. *)
Lemma split_perm : forall n F, NoDup F -> (forall k, In k F -> k < n) ->
  Permutation (seq 0 n) (F ++ filter (fun k => negb (mem k F)) (seq 0 n)).
Proof.
  intros n F ND HB. apply NoDup_Permutation.
  - apply seq_NoDup.
  - apply NoDup_app_intro; auto.
    + apply NoDup_filter, seq_NoDup.
    + intros k H1 H2. apply filter_In in H2. destruct H2 as [_ H2]. apply mem_In in H1. rewrite H1 in H2. discriminate.
  - intros k. rewrite in_app_iff, filter_In, in_seq. split.
    + intros H. destruct (mem k F) eqn:E; [left; apply mem_In; auto|right; auto].
    + intros [H|[H _]]; [apply HB in H; lia|auto].
Qed.

Lemma total_split : forall g F, wf_gmv g -> fin_gmv fin g -> NoDup F -> (forall k, In k F -> k < length (v_factors g)) ->
  forall x, labeling g x -> total OP g x =
     o_op OP (big F (fun k => val g k x)) (big (filter (fun k => negb (mem k F)) (seq 0 (length (v_factors g)))) (fun k => val g k x)).
Proof.
  intros g F W FG ND HB x L. rewrite total_big by auto. rewrite (big_perm _ _ _ (split_perm _ F ND HB)) by (intros; apply val_fin; auto).
  apply big_app. intros. apply val_fin; auto.
Qed.

(** Two labelings that differ only in variables whose factors are all in [F]. *)
Definition agree_off (g : gmv T) (F : list nat) (x y : list nat) : Prop :=
  forall k fc, nth_error (v_factors g) k = Some fc -> ~ In k F -> forall v, In v (fst fc) -> nth v x 0 = nth v y 0.

Lemma at_vars_ext : forall x y l, (forall v, In v l -> nth v x 0 = nth v y 0) -> at_vars x l = at_vars y l.
Proof. intros. apply map_ext_in. auto. Qed.

Lemma rest_agree : forall g F x y, agree_off g F x y ->
  big (filter (fun k => negb (mem k F)) (seq 0 (length (v_factors g)))) (fun k => val g k x) =
  big (filter (fun k => negb (mem k F)) (seq 0 (length (v_factors g)))) (fun k => val g k y).
Proof.
  intros g F x y H. apply big_ext. intros k Hk. apply filter_In in Hk. destruct Hk as [_ Hk].
  assert (~ In k F) by (apply mem_false; destruct (mem k F); auto; discriminate).
  unfold val. destruct (nth_error (v_factors g) k) as [fc|] eqn:E; auto. f_equal. apply at_vars_ext. intros. eapply H; eauto.
Qed.
End V.
