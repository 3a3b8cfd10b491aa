From Coq Require Import QArith Qcanon Relations.
From Verif Require Import Base PartitionModel UnionFind PartitionProofs ConstraintModel ConstraintProofs StModel.
From Verif Require DmcProofs.
Open Scope nat_scope.

(** Specification: two variables are joined by a factor beyond the threshold; the clusters are what such factors connect. *)
Definition joins (factors : list (list nat)) (lambdas : list Qc) (threshold : Qc) (m : nat) (a b : nat) : Prop :=
  exists f lam, f < m /\ nth_error factors f = Some [a; b] /\ nth_error lambdas f = Some lam /\ (threshold < lam)%Qc.
Definition same_cluster factors lambdas threshold : nat -> nat -> Prop := clos_refl_sym_trans nat (joins factors lambdas threshold (length factors)).
Definition pairwise (n : nat) (vis : list nat) : Prop := exists a b, vis = [a; b] /\ a < n /\ b < n.

Lemma nth_error_first {A} (l : list A) : forall k m, k < m -> nth_error (firstn m l) k = nth_error l k.
Proof. induction l as [|x l IH]; intros [|k] [|m] H; cbn; try lia; auto. apply IH. lia. Qed.

Section Start.
Variables (n : nat) (factors : list (list nat)) (lambdas : list Qc) (threshold : Qc).
Definition body (ufd : partition) (fi : nat) : outcome partition :=
    vis <- rd factors fi ;;
    if length vis =? 2 then
      vi0 <- rd vis 0 ;; vi1 <- rd vis 1 ;; lam <- rd lambdas fi ;;
      if Qc_lt threshold lam then part_merge ufd vi0 vi1 else Ret ufd
    else Throw.
Lemma merge_ok m : m <= length factors -> m <= length lambdas -> Forall (pairwise n) (firstn m factors) ->
  exists p pairs, foldM body (seq 0 m) (part_init n) = Ret p /\ PInv p n pairs /\ forall a b, In (a, b) pairs <-> joins factors lambdas threshold m a b.
Proof.
  intros L1 L2 F. destruct (DmcProofs.foldM_upto _ body (fun k p => exists pairs, PInv p n pairs /\ forall a b, In (a, b) pairs <-> joins factors lambdas threshold k a b) m (part_init n)) as (p & E & pairs & I & J).
  - exists []. split; [apply PInv_init|]. intros a b. split; [intros []|]. intros (f & lam & H & _). lia.
  - intros k p H (pairs & I & J). unfold body. 
    destruct (nth_error factors k) as [vis|] eqn:EV; [|apply nth_error_None in EV; lia]. rewrite (rd_Ret _ _ _ _ EV). cbn [bind].
    assert (PW : pairwise n vis). { rewrite Forall_forall in F. apply F. apply nth_error_In with k. rewrite nth_error_first by exact H. exact EV. }
    destruct PW as (a & b & -> & A & B). cbn [length Nat.eqb]. change (rd [a; b] 0) with (Ret a). change (rd [a; b] 1) with (Ret b). cbn [bind].
    destruct (nth_error lambdas k) as [lam|] eqn:EL; [|apply nth_error_None in EL; lia]. rewrite (rd_Ret _ _ _ _ EL). cbn [bind].
    unfold Qc_lt. destruct (Qclt_le_dec threshold lam) as [Q|Q].
    + destruct (PInv_merge p n pairs a b I A B) as (p' & E & I'). exists p'. split; [exact E|]. exists ((a, b) :: pairs). split; [exact I'|].
      intros c d. cbn [In]. rewrite J. split.
      * intros [X|(f & l & X & Y)]; [injection X as <- <-; exists k, lam; auto|]. exists f, l. split; [lia|exact Y].
      * intros (f & l & X & Y1 & Y2 & Y3). destruct (Nat.eq_dec f k) as [->|NE]; [left; rewrite EV in Y1; injection Y1 as <- <-; reflexivity|]. right. exists f, l. split; [lia|auto].
    + exists p. split; [reflexivity|]. exists pairs. split; [exact I|]. intros c d. rewrite J. split; intros (f & l & X & Y1 & Y2 & Y3); exists f, l; (split; [|auto]); [lia|].
      destruct (Nat.eq_dec f k) as [->|NE]; [|lia]. exfalso. rewrite EL in Y2. injection Y2 as <-. exact (Qcle_not_lt _ _ Q Y3).
  - exists p, pairs. auto.
Qed.
End Start.

Lemma clos_same (R S : nat -> nat -> Prop) : (forall a b, R a b <-> S a b) -> forall a b, clos_refl_sym_trans nat R a b <-> clos_refl_sym_trans nat S a b.
Proof.
  intros H a b. split; intros X; induction X as [x y X|x|x y X IH|x y z X1 IH1 X2 IH2]; try (apply rst_step; apply H; exact X); try apply rst_refl; try (apply rst_sym; exact IH); eapply rst_trans; eauto.
Qed.

(** The labeling tells exactly the clusters apart, its labels are those from 0 without gaps, and what the result held before does not matter. *)
Theorem C77_start n factors lambdas threshold : Forall (pairwise n) factors -> length factors <= length lambdas ->
  exists x, (forall res, st_start n factors lambdas res threshold = Ret x) /\ length x = n /\
    (forall v w, v < n -> w < n -> (nth v x 0 = nth w x 0 <-> same_cluster factors lambdas threshold v w)) /\
    (forall v k, v < n -> k <= nth v x 0 -> exists w, w < n /\ nth w x 0 = k).
Proof.
  intros F L. destruct (merge_ok n factors lambdas threshold (length factors)) as (p & pairs & EM & PI & J); [lia|exact L|rewrite firstn_all; exact F|].
  destruct (part_representativeLabeling_spec p n pairs PI) as (repr & ER & M & _).
  set (rt := fun v => match part_find_const p v with Ret r => r | _ => 0 end).
  assert (RT : forall v, v < n -> Root (parents p) v (rt v)). { intros v H. destruct (PInv_find_const p n pairs v PI H) as (r & E & R). unfold rt. rewrite E. exact R. }
  set (comp := fun v => map_at repr (rt v)).
  assert (CO : forall v, v < n -> nth_error (roots (parents p)) (comp v) = Some (rt v)).
  { intros v H. assert (I : In (rt v) (roots (parents p))) by (apply roots_In; eapply Root_self; apply RT; exact H). apply In_nth_error in I. destruct I as [j K]. unfold comp. rewrite (M j _ K). exact K. }
  exists (map comp (seq 0 n)).
  assert (NX : forall v, v < n -> nth v (map comp (seq 0 n)) 0 = comp v).
  { intros v H. rewrite (nth_indep _ 0 (comp 0)) by (rewrite map_length, seq_length; exact H). rewrite map_nth, seq_nth by exact H. reflexivity. }
  split; [|split; [rewrite map_length, seq_length; reflexivity|split]].
  - intros res. unfold st_start. change (st_merge n factors lambdas threshold) with (foldM (body factors lambdas threshold) (seq 0 (length factors)) (part_init n)). rewrite EM. cbn [bind]. rewrite ER. cbn [bind].
    set (res0 := firstn n res ++ repeat 0 (n - length res)). assert (L0 : length res0 = n) by (unfold res0; rewrite app_length, firstn_length, repeat_length; lia).
    unfold st_write.
    destruct (DmcProofs.foldM_upto _ (fun '(ufd, res) vi => ' (ufd, r) <- part_find ufd vi ;; res <- wr res vi (map_at repr r) ;; Ret (ufd, res))
      (fun k t => PInv (fst t) n pairs /\ (forall z s, Root (parents (fst t)) z s <-> Root (parents p) z s) /\ length (snd t) = n /\ forall v, v < k -> nth v (snd t) 0 = comp v) n (p, res0)) as ([q x] & E & Q1 & Q2 & Q3 & Q4).
    + cbn. split; [exact PI|]. split; [reflexivity|]. split; [exact L0|]. intros; lia.
    + intros k [q x] H (Q1 & Q2 & Q3 & Q4). cbn [fst snd] in *. destruct (PInv_find q n pairs k Q1 H) as (q' & r & E & I & R & _ & S). rewrite E. cbn [bind].
      rewrite wr_Ret by lia. cbn [bind]. eexists. split; [reflexivity|]. cbn [fst snd]. split; [exact I|]. split; [intros z s; rewrite S; apply Q2|]. split; [rewrite length_upd; exact Q3|].
      intros v V. destruct (Nat.eq_dec v k) as [->|NE].
      * rewrite nth_upd_eq by lia. unfold comp. rewrite (Root_det _ _ _ _ (proj1 (Q2 k r) R) (RT k H)). reflexivity.
      * rewrite nth_upd_neq by lia. apply Q4. lia.
    + cbn [fst snd] in *. rewrite E. cbn [bind]. f_equal. apply nth_ext with 0 0; [rewrite map_length, seq_length; exact Q3|]. intros v V. rewrite Q3 in V. rewrite Q4, NX by exact V. reflexivity.
  - intros v w V W. rewrite !NX by assumption. unfold same_cluster. rewrite <- (clos_same (fun a b => In (a, b) pairs) _ J).
    transitivity (rt v = rt w); [|apply (pi_agrees _ _ _ PI); apply RT; assumption].
    split; [|unfold comp; congruence]. intros E. pose proof (CO v V) as A. pose proof (CO w W) as B. rewrite E in A. congruence.
  - intros v k V K. rewrite NX in K by exact V. assert (X : k < length (roots (parents p))) by (eapply Nat.le_lt_trans; [exact K|]; apply nth_error_Some; rewrite CO by exact V; discriminate).
    destruct (nth_error (roots (parents p)) k) as [r|] eqn:E; [|apply nth_error_None in E; lia].
    assert (RR : nth_error (parents p) r = Some r) by (apply roots_In; eapply nth_error_In; exact E).
    assert (Rn : r < n) by (rewrite <- (pi_len _ _ _ PI); apply nth_error_Some; congruence).
    exists r. split; [exact Rn|]. rewrite NX by exact Rn. unfold comp. rewrite (Root_det _ _ _ _ (RT r Rn) (Root_of_root _ _ RR)). apply M. exact E.
Qed.
Print Assumptions C77_start.

(** A factor that does not have two variables is refused; too few weights are undefined. *)
Theorem C77_throw n factors lambdas threshold res f vis : nth_error factors f = Some vis -> length vis <> 2 -> Forall (pairwise n) (firstn f factors) -> f <= length lambdas ->
  st_start n factors lambdas res threshold = Throw.
Proof.
  intros E V F L. assert (K : f < length factors) by (apply nth_error_Some; congruence).
  destruct (merge_ok n factors lambdas threshold f) as (p & pairs & EM & _); [lia|exact L|exact F|].
  unfold st_start. change (st_merge n factors lambdas threshold) with (foldM (body factors lambdas threshold) (seq 0 (length factors)) (part_init n)).
  replace (seq 0 (length factors)) with (seq 0 f ++ f :: seq (S f) (length factors - S f)).
  2: { replace (length factors) with (f + S (length factors - S f)) at 2 by lia. rewrite seq_app. reflexivity. }
  rewrite foldM_app, EM. cbn [bind foldM]. unfold body at 1. rewrite (rd_Ret _ _ _ _ E). cbn [bind]. apply Nat.eqb_neq in V. rewrite V. reflexivity.
Qed.
Print Assumptions C77_throw.
Theorem C77_few_refuted n factors lambdas threshold res : Forall (pairwise n) factors -> length lambdas < length factors -> st_start n factors lambdas res threshold = Undef.
Proof.
  intros F L. set (f := length lambdas) in *.
  destruct (merge_ok n factors lambdas threshold f) as (p & pairs & EM & _); [lia|lia|apply Forall_forall; intros x X; rewrite Forall_forall in F; apply F; revert X; rewrite <- (firstn_skipn f factors) at 2; intros X; apply in_or_app; left; exact X|].
  unfold st_start. change (st_merge n factors lambdas threshold) with (foldM (body factors lambdas threshold) (seq 0 (length factors)) (part_init n)).
  replace (seq 0 (length factors)) with (seq 0 f ++ f :: seq (S f) (length factors - S f)).
  2: { replace (length factors) with (f + S (length factors - S f)) at 2 by lia. rewrite seq_app. reflexivity. }
  rewrite foldM_app, EM. cbn [bind foldM]. unfold body at 1. destruct (nth_error factors f) as [vis|] eqn:E; [|apply nth_error_None in E; lia].
  rewrite (rd_Ret _ _ _ _ E). cbn [bind]. rewrite Forall_forall in F. destruct (F vis (nth_error_In _ _ E)) as (a & b & -> & _). cbn.
  replace (rd lambdas f) with (@Undef Qc); [reflexivity|]. unfold rd. replace (nth_error lambdas f) with (@None Qc); [reflexivity|]. symmetry. apply nth_error_None. unfold f. lia.
Qed.
Print Assumptions C77_few_refuted.

Example C77_example : Forall (pairwise 5) [[0; 1]; [3; 1]; [2; 4]; [0; 3]] /\
  st_start 5 [[0; 1]; [3; 1]; [2; 4]; [0; 3]] [Qc_of 1; Qc_of 2; Qc_of 1; Qc_of 0] [9] 0%Qc = Ret [0; 0; 1; 0; 1].
Proof. split; [repeat constructor; (eexists; eexists; split; [reflexivity|lia])|vm_compute; reflexivity]. Qed.
