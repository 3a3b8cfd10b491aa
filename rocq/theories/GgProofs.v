(** GreedyGremlin: what one round does. *)
From Coq Require Import Relations Permutation Sorted.
From Verif Require Import Base Values GmView GmViewSpec GmViewProofs ShapeSpec ShapeProofs AStarSearch GgModel GgSpec.
From Verif Require TentacleSim TentaclePeel IndexingProofs.

Lemma member_In : forall v l, member v l = true <-> In v l.
Proof. intros v l. unfold member. rewrite existsb_exists. split; [intros (u & I & E); apply Nat.eqb_eq in E; subst; exact I|intros I; exists v; split; [exact I|apply Nat.eqb_refl]]. Qed.
Lemma fold_left_ext_in : forall A B (f h : A -> B -> A) l, (forall a b, In b l -> f a b = h a b) -> forall a, fold_left f l a = fold_left h l a.
Proof. intros A B f h. induction l as [|b l IH]; intros H a; [reflexivity|]. cbn. rewrite (H a b) by (left; reflexivity). apply IH. intros; apply H; right; assumption. Qed.
Lemma NoDup_app_comm_one : forall (l : list nat) v, NoDup l -> ~ In v l -> NoDup (l ++ [v]).
Proof. intros l v ND NI. apply (Permutation_NoDup (l := v :: l)); [apply Permutation_cons_append|]. constructor; assumption. Qed.
Section Gg.
Variable T : Type.
Variable OP : oper T.
Variable ACC : accum T.
Variable g : gmv T.
Notation n := (length (v_labels g)).
Hypothesis W : wf_gmv g.
Lemma wf_vars : forall fc, In fc (v_factors g) -> NoDup (fst fc) /\ Forall (fun v => v < n) (fst fc).
Proof.
  intros fc I. destruct W as [W1 _]. rewrite Forall_forall in W1. destruct (W1 fc I) as [S L]. split; [|exact L]. clear - S. induction S as [|a l S IH H]; constructor; [|exact IH]. intros X. rewrite Forall_forall in H. specialize (H a X). lia.
Qed.
Lemma adj_fold : forall A (step : A -> list nat * (list nat -> T) -> outcome A) v s,
  foldM (fun s f => fc <- rd (v_factors g) f ;; step s fc) (v_adj T g v) s = foldM (fun s fc => if member v (fst fc) then step s fc else Ret s) (v_factors g) s.
Proof.
  intros A step v s. unfold v_adj. rewrite TentacleSim.foldM_filter. apply TentacleSim.foldM_idx. intros i fc st E. rewrite E. destruct fc as [vis fn]. cbn [fst]. fold (member v vis). destruct (member v vis); [|reflexivity]. unfold rd. rewrite E. reflexivity.
Qed.
Lemma useIt_ok : forall color vs, Forall (fun v => v < length color) vs -> gg_useIt color vs = Ret (forallb (fun v => nth v color false) vs).
Proof. intros color. induction vs as [|v vs IH]; intros H; [reflexivity|]. inversion H; subst. cbn [gg_useIt forallb]. rewrite (rd_nth _ color v false) by assumption. cbn [bind]. destruct (nth v color false); [apply IH; assumption|reflexivity]. Qed.
Lemma labels_out : forall var conf vs pre p, ~ In var vs -> Forall (fun v => v < length conf) vs ->
  gg_labels var conf vs (length pre) (pre ++ repeat 0 (length vs)) p = Ret (pre ++ at_vars conf vs, p).
Proof.
  intros var conf. induction vs as [|v vs IH]; intros pre p NI H; [reflexivity|]. inversion H; subst. cbn [gg_labels length repeat]. destruct (Nat.eqb_spec v var) as [->|NE]; [exfalso; apply NI; left; reflexivity|].
  rewrite (rd_nth _ conf v 0) by assumption. cbn [bind]. rewrite wr_Ret by (rewrite app_length; cbn; lia). cbn [bind]. rewrite (IndexingProofs.upd_app_mid _ pre _ 0 _ _ eq_refl).
  specialize (IH (pre ++ [nth v conf 0]) p). rewrite app_length in IH. cbn in IH. rewrite Nat.add_1_r, <- !app_assoc in IH. apply IH; [intros X; apply NI; right; exact X|assumption].
Qed.
Lemma at_vars_upd : forall conf v a vs, ~ In v vs -> at_vars (upd conf v a) vs = at_vars conf vs.
Proof. intros conf v a vs NI. apply at_vars_ext. intros u I. apply nth_upd_neq. intros ->. contradiction. Qed.
Lemma labels_ok : forall var conf vs pre p, NoDup vs -> In var vs -> Forall (fun v => v < length conf) vs ->
  exists l q, gg_labels var conf vs (length pre) (pre ++ repeat 0 (length vs)) p = Ret (l, Some q) /\ forall a, wr l q a = Ret (pre ++ at_vars (upd conf var a) vs).
Proof.
  intros var conf. induction vs as [|v vs IH]; intros pre p ND I H; [destruct I|]. inversion H; subst. inversion ND; subst. cbn [gg_labels length repeat]. destruct (Nat.eqb_spec v var) as [->|NE].
  - pose proof (labels_out var conf vs (pre ++ [0]) (Some (length pre)) ltac:(assumption) ltac:(assumption)) as E. rewrite app_length in E. cbn in E. rewrite Nat.add_1_r, <- !app_assoc in E. cbn in E. rewrite E.
    eexists _, _. split; [reflexivity|]. intros a. rewrite wr_Ret by (rewrite app_length; cbn; lia). rewrite (IndexingProofs.upd_app_mid _ pre _ 0 _ _ eq_refl). unfold at_vars at 2. cbn [map]. rewrite nth_upd_eq by assumption. fold (at_vars (upd conf var a) vs). rewrite at_vars_upd by assumption. reflexivity.
  - destruct I as [->|I]; [congruence|]. rewrite (rd_nth _ conf v 0) by assumption. cbn [bind]. rewrite wr_Ret by (rewrite app_length; cbn; lia). cbn [bind]. rewrite (IndexingProofs.upd_app_mid _ pre _ 0 _ _ eq_refl).
    destruct (IH (pre ++ [nth v conf 0]) p ltac:(assumption) I ltac:(assumption)) as (l & q & E & HW). rewrite app_length in E. cbn in E. rewrite Nat.add_1_r, <- !app_assoc in E. exists l, q. split; [exact E|]. intros a. rewrite HW. rewrite <- app_assoc. unfold at_vars. cbn [map]. rewrite nth_upd_neq by auto. reflexivity.
Qed.
(** One factor. *)
Definition put (keep : nat -> bool) (var : nat) (conf : list nat) (acc : T) (fc : list nat * (list nat -> T)) (a : nat) : T :=
  if forallb keep (fst fc) then o_op OP (snd fc (at_vars (upd conf var a) (fst fc))) acc else acc.
Lemma nth_map_seq_any : forall A (f : nat -> A) m i d, i < m -> nth i (map f (seq 0 m)) d = f i.
Proof. intros A f m i d H. rewrite (nth_indep _ d (f 0)) by (rewrite map_length, seq_length; exact H). rewrite map_nth, seq_nth by exact H. reflexivity. Qed.
Lemma upd_map_seq : forall A (f : nat -> A) m a b, a < m -> upd (map f (seq 0 m)) a b = map (fun i => if i =? a then b else f i) (seq 0 m).
Proof.
  intros A f m a b H. apply (nth_ext _ _ b b); [rewrite length_upd, !map_length; reflexivity|]. intros i Hi. rewrite length_upd, map_length, seq_length in Hi. rewrite nth_map_seq_any by exact Hi. destruct (Nat.eqb_spec i a) as [->|NE]; [apply nth_upd_eq; rewrite map_length, seq_length; exact H|]. rewrite nth_upd_neq by auto. apply nth_map_seq_any. exact Hi.
Qed.
Lemma vals_loop : forall (l : list nat) (q : nat) (h : nat -> list nat) (fn : list nat -> T) (f : nat -> T) m,
  (forall a, wr l q a = Ret (h a)) ->
  foldM (fun vals a => l <- wr l q a ;; w <- rd vals a ;; wr vals a (o_op OP (fn l) w)) (seq 0 m) (map f (seq 0 m)) = Ret (map (fun a => o_op OP (fn (h a)) (f a)) (seq 0 m)).
Proof.
  intros l q h fn f m HW. destruct (foldM_ind nat (list T) (fun vals a => l <- wr l q a ;; w <- rd vals a ;; wr vals a (o_op OP (fn l) w)) (fun k vals => vals = map (fun a => if a <? k then o_op OP (fn (h a)) (f a) else f a) (seq 0 m)) (seq 0 m) (map f (seq 0 m))) as (r & E & HR).
  - apply map_ext. reflexivity.
  - intros k a vals Hk HP. apply nth_error_nth with (d := 0) in Hk as Hk'. assert (Lk : k < m) by (rewrite <- (seq_length m 0); apply nth_error_Some; congruence). rewrite seq_nth in Hk' by exact Lk. cbn in Hk'. subst a. rewrite HW. cbn [bind]. subst vals.
    rewrite (rd_nth _ _ k (f k)) by (rewrite map_length, seq_length; exact Lk). cbn [bind]. rewrite nth_map_seq_any by exact Lk. rewrite Nat.ltb_irrefl. rewrite wr_Ret by (rewrite map_length, seq_length; exact Lk). eexists. split; [reflexivity|].
    rewrite upd_map_seq by exact Lk. apply map_ext. intros i. destruct (Nat.eqb_spec i k) as [->|NE]; [rewrite (proj2 (Nat.ltb_lt k (S k))) by lia; reflexivity|]. destruct (Nat.ltb_spec i k), (Nat.ltb_spec i (S k)); try reflexivity; lia.
  - rewrite E, HR, seq_length. f_equal. apply map_ext_in. intros a I. apply in_seq in I. rewrite (proj2 (Nat.ltb_lt a m)) by lia. reflexivity.
Qed.
(** All factors of a variable. *)
Lemma vals_ok : forall var color conf, var < n -> length color = n -> length conf = n ->
  foldM (gg_factor T OP g var color conf) (v_adj T g var) (repeat (o_neutral OP) (nth var (v_labels g) 0)) =
  Ret (map (fun a => value_within OP g (fun u => nth u color false) var (upd conf var a)) (seq 0 (nth var (v_labels g) 0))).
Proof.
  intros var color conf HV HC HF. set (m := nth var (v_labels g) 0). set (keep := fun u => nth u color false).
  unfold gg_factor. rewrite (adj_fold (list T) (fun vals fc => useIt <- gg_useIt color (fst fc) ;; _)).
  destruct (TentaclePeel.foldM_pre _ _ (fun pre vals => vals = map (fun a => fold_left (fun acc fc => if member var (fst fc) && forallb keep (fst fc) then o_op OP (snd fc (at_vars (upd conf var a) (fst fc))) acc else acc) pre (o_neutral OP)) (seq 0 m))
    (fun s fc => if member var (fst fc) then useIt <- gg_useIt color (fst fc) ;; (if useIt : bool then ' (l, p) <- gg_labels var conf (fst fc) 0 (repeat 0 (length (fst fc))) None ;; match p with None => Undef | Some p => k <- rd (v_labels g) var ;; foldM (fun vals a => l <- wr l p a ;; w <- rd vals a ;; wr vals a (o_op OP (snd fc l) w)) (seq 0 k) s end else Ret s) else Ret s)
    (v_factors g) (repeat (o_neutral OP) m)) as (r & E & HR).
  - cbn [fold_left]. apply (nth_ext _ _ (o_neutral OP) (o_neutral OP)); [rewrite repeat_length, map_length, seq_length; reflexivity|]. intros i Hi. rewrite repeat_length in Hi. rewrite nth_map_seq_any by exact Hi. apply nth_repeat.
  - intros pre fc post s EF ->. assert (IF : In fc (v_factors g)) by (rewrite EF; apply in_elt). destruct (wf_vars fc IF) as [ND LT].
    destruct (member var (fst fc)) eqn:M; [|eexists; split; [reflexivity|]; apply map_ext; intros a; rewrite fold_left_app; cbn [fold_left]; rewrite M; reflexivity]. pose proof M as M'. apply member_In in M'. rewrite useIt_ok by (rewrite HC; exact LT). cbn [bind]. fold keep. destruct (forallb keep (fst fc)) eqn:FK; [|eexists; split; [reflexivity|]; apply map_ext; intros a; rewrite fold_left_app; cbn [fold_left]; rewrite M, FK; reflexivity].
    destruct (labels_ok var conf (fst fc) [] None ND M' ltac:(rewrite HF; exact LT)) as (l & q & E & HW). cbn in E. rewrite E. cbn [bind]. rewrite (rd_nth _ (v_labels g) var 0) by exact HV. cbn [bind]. fold m.
    rewrite (vals_loop l q (fun a => at_vars (upd conf var a) (fst fc)) (snd fc) _ m HW). eexists; split; [reflexivity|]; apply map_ext; intros a; rewrite fold_left_app; cbn [fold_left]; rewrite M, FK; reflexivity.
  - etransitivity; [exact E|]. rewrite HR. reflexivity.
Qed.
(** The best label. *)
Lemma best_ok : forall var (h : nat -> T) m conf, length conf = n -> var < n -> nth var conf 0 < m -> exists l, gg_best T ACC var (map h (seq 0 m)) conf = Ret (upd conf var l) /\ l < m /\
  forall fin, op_laws fin OP -> acc_laws fin OP ACC -> (forall a, a < m -> fin (h a)) -> forall a, a < m -> a_bop ACC (h a) (h l) = false.
Proof.
  intros var h m conf HF HV HL. unfold gg_best. rewrite map_length, seq_length.
  destruct (foldM_ind nat (list nat) (fun conf i => w <- rd (map h (seq 0 m)) i ;; c <- rd conf var ;; b <- rd (map h (seq 0 m)) c ;; if a_bop ACC w b then wr conf var i else Ret conf)
    (fun k cf => exists l, cf = upd conf var l /\ l < m /\ forall fin, op_laws fin OP -> acc_laws fin OP ACC -> (forall a, a < m -> fin (h a)) -> forall a, a < k -> a_bop ACC (h a) (h l) = false) (seq 0 m) conf) as (r & E & l & HR & Hl & HB).
  - exists (nth var conf 0). split; [symmetry; apply upd_same; apply nth_error_nth'; lia|]. split; [exact HL|]. intros; lia.
  - intros k a cf Hk (l & -> & Hl & HB). assert (Lk : k < m) by (rewrite <- (seq_length m 0); apply nth_error_Some; congruence). apply nth_error_nth with (d := 0) in Hk. rewrite seq_nth in Hk by exact Lk. cbn in Hk. subst a.
    rewrite (rd_nth _ _ k (h k)) by (rewrite map_length, seq_length; exact Lk). cbn [bind]. rewrite (rd_nth _ _ var 0) by (rewrite length_upd; lia). cbn [bind]. rewrite nth_upd_eq by lia. rewrite (rd_nth _ _ l (h l)) by (rewrite map_length, seq_length; exact Hl). cbn [bind]. rewrite !nth_map_seq_any by assumption.
    destruct (a_bop ACC (h k) (h l)) eqn:B.
    + rewrite wr_Ret by (rewrite length_upd; lia). rewrite upd_upd_eq. eexists. split; [reflexivity|]. exists k. split; [reflexivity|]. split; [exact Lk|]. intros fin OL AL F a Ha. destruct (Nat.eq_dec a k) as [->|NE]; [apply (al_irrefl _ _ _ AL); auto|]. specialize (HB fin OL AL F a ltac:(lia)). destruct (a_bop ACC (h a) (h k)) eqn:B2; [|reflexivity]. rewrite <- HB. symmetry. apply (al_trans _ _ _ AL) with (h k); auto. apply F; lia.
    + eexists. split; [reflexivity|]. exists l. split; [reflexivity|]. split; [exact Hl|]. intros fin OL AL F a Ha. destruct (Nat.eq_dec a k) as [->|NE]; [exact B|]. apply (HB fin OL AL F). lia.
  - exists l. rewrite E, HR. split; [reflexivity|]. split; [exact Hl|]. intros fin OL AL F a Ha. apply (HB fin OL AL F). rewrite seq_length. exact Ha.
Qed.
(** The queue. *)
Definition queue (s : gg) (Q : list nat) : Prop :=
  length (gg_color s) = n /\ gg_wait s = Q ++ repeat 0 (n - length Q) /\ S (gg_last s) = length Q /\ NoDup Q /\ (forall v, In v Q -> v < n) /\ forall v, v < n -> nth v (gg_color s) false = member v Q.
Lemma queue_le : forall s Q, queue s Q -> length Q <= n.
Proof. intros s Q (_ & _ & _ & ND & LT & _). rewrite <- (seq_length n 0). apply NoDup_incl_length; [exact ND|]. intros v I. apply in_seq. specialize (LT v I). lia. Qed.
Lemma push_ok : forall s Q v, queue s Q -> v < n -> exists s' ext, gg_push s v = Ret s' /\ queue s' (Q ++ ext) /\ gg_conf s' = gg_conf s /\ forall u, In u (Q ++ ext) <-> In u Q \/ u = v.
Proof.
  intros s Q v HQ HV. pose proof HQ as (HC & HW & HL & ND & LT & CO). unfold gg_push. rewrite (rd_nth _ _ v false) by lia. cbn [bind]. rewrite (CO v HV). destruct (member v Q) eqn:M.
  - apply member_In in M. exists s, []. rewrite app_nil_r. split; [reflexivity|]. split; [exact HQ|]. split; [reflexivity|]. intros u. split; [tauto|]. intros [J| ->]; auto.
  - assert (NI : ~ In v Q) by (intros X; apply member_In in X; congruence). assert (LQ : S (length Q) <= n).
    { change (S (length Q)) with (length (v :: Q)). rewrite <- (seq_length n 0). apply NoDup_incl_length; [constructor; assumption|]. intros u [<-|I]; apply in_seq; [lia|]. specialize (LT u I). lia. }
    rewrite wr_Ret by lia. cbn [bind]. rewrite HL. rewrite wr_Ret by (rewrite HW, app_length, repeat_length; lia). cbn [bind]. eexists _, [v]. split; [reflexivity|]. split; [|split; [reflexivity|intros u; rewrite in_app_iff; cbn; intuition]].
    split; [cbn; rewrite length_upd; exact HC|]. cbn [gg_color gg_wait gg_last]. rewrite app_length. cbn [length]. split; [|split; [lia|split; [|split]]].
    + rewrite HW. destruct (n - length Q) as [|k] eqn:K; [lia|]. cbn [repeat]. rewrite (IndexingProofs.upd_app_mid _ Q _ 0 _ _ eq_refl), <- app_assoc. cbn. do 3 f_equal. lia.
    + apply NoDup_app_comm_one; assumption.
    + intros u I. apply in_app_iff in I. destruct I as [I|[<-|[]]]; auto.
    + intros u Hu. destruct (Nat.eq_dec u v) as [->|NE].
      * rewrite nth_upd_eq by lia. symmetry. apply member_In. apply in_app_iff. right. left. reflexivity.
      * rewrite nth_upd_neq by auto. rewrite (CO u Hu). unfold member. rewrite existsb_app. cbn. rewrite (proj2 (Nat.eqb_neq u v)) by exact NE. rewrite !orb_false_r. reflexivity.
Qed.
Lemma pushes_ok : forall vs s Q, queue s Q -> Forall (fun v => v < n) vs -> exists s' ext, foldM gg_push vs s = Ret s' /\ queue s' (Q ++ ext) /\ gg_conf s' = gg_conf s /\ forall u, In u (Q ++ ext) <-> In u Q \/ In u vs.
Proof.
  induction vs as [|v vs IH]; intros s Q HQ H.
  - exists s, []. rewrite app_nil_r. cbn. intuition.
  - inversion H; subst. destruct (push_ok s Q v HQ ltac:(assumption)) as (s1 & e1 & E1 & Q1 & C1 & I1). destruct (IH s1 (Q ++ e1) Q1 ltac:(assumption)) as (s2 & e2 & E2 & Q2 & C2 & I2). exists s2, (e1 ++ e2). rewrite app_assoc. cbn [foldM]. rewrite E1. cbn [bind]. split; [exact E2|]. split; [exact Q2|]. split; [congruence|]. intros u. rewrite I2, I1. cbn. intuition.
Qed.
Lemma white_ok : forall var s Q, queue s Q -> exists s' ext, foldM (fun s f => fc <- rd (v_factors g) f ;; foldM gg_push (fst fc) s) (v_adj T g var) s = Ret s' /\ queue s' (Q ++ ext) /\ gg_conf s' = gg_conf s /\ forall u, In u (Q ++ ext) <-> In u Q \/ adjacent g var u = true.
Proof.
  intros var s Q HQ. rewrite (adj_fold gg (fun s fc => foldM gg_push (fst fc) s)).
  destruct (TentaclePeel.foldM_pre _ _ (fun pre s' => exists ext, queue s' (Q ++ ext) /\ gg_conf s' = gg_conf s /\ forall u, In u (Q ++ ext) <-> In u Q \/ existsb (fun fc => member var (fst fc) && member u (fst fc)) pre = true)
    (fun s fc => if member var (fst fc) then foldM gg_push (fst fc) s else Ret s) (v_factors g) s) as (s' & E & ext & H).
  - exists []. rewrite app_nil_r. cbn. intuition discriminate.
  - intros pre fc post s1 EF (ext & Q1 & C1 & I1). assert (IF : In fc (v_factors g)) by (rewrite EF; apply in_elt). destruct (wf_vars fc IF) as [_ LT]. destruct (member var (fst fc)) eqn:M.
    + destruct (pushes_ok (fst fc) s1 _ Q1 LT) as (s2 & e2 & E2 & Q2 & C2 & I2). exists s2. split; [exact E2|]. exists (ext ++ e2). rewrite app_assoc. split; [exact Q2|]. split; [congruence|]. intros u. rewrite I2, I1, existsb_app. cbn [existsb]. rewrite M, orb_false_r, orb_true_iff, andb_true_l, member_In. tauto.
    + exists s1. split; [reflexivity|]. exists ext. split; [exact Q1|]. split; [exact C1|]. intros u. rewrite I1, existsb_app. cbn [existsb]. rewrite M. cbn [andb orb]. rewrite orb_false_r. reflexivity.
  - exists s', ext. destruct H as (H1 & H2 & H3). auto.
Qed.
Lemma within_ext : forall k1 k2 v x, (forall u, u < n -> k1 u = k2 u) -> value_within OP g k1 v x = value_within OP g k2 v x.
Proof.
  intros k1 k2 v x H. unfold value_within. apply fold_left_ext_in. intros acc fc I. destruct (wf_vars fc I) as [_ LT]. replace (forallb k2 (fst fc)) with (forallb k1 (fst fc)); [reflexivity|]. clear - H LT. induction LT as [|u l Hu L IH]; [reflexivity|]. cbn. rewrite (H u Hu), IH. reflexivity.
Qed.
Lemma within_fin : forall fin keep v x, op_laws fin OP -> fin_gmv fin g -> labeling g x -> fin (value_within OP g keep v x).
Proof.
  intros fin keep v x OL F L. unfold value_within. unfold fin_gmv in F. pose proof (ol_neutral _ _ OL) as H. revert H. generalize (o_neutral OP). induction (v_factors g) as [|fc fs IH]; intros acc H; [exact H|]. inversion F; subst. cbn [fold_left]. apply IH; [assumption|]. destruct (_ && _); [|exact H]. apply (ol_op _ _ OL); auto.
Qed.
Lemma upd_lab : forall x v l, labeling g x -> v < n -> l < nth v (v_labels g) 0 -> labeling g (upd x v l).
Proof.
  intros x v l L Hv Hl. pose proof (labeling_length T g x L) as LX. apply in_shape_nths; [rewrite length_upd; exact LX|]. intros u Hu. destruct (Nat.eq_dec u v) as [->|NE]; [rewrite nth_upd_eq by lia; exact Hl|]. rewrite nth_upd_neq by auto. apply in_shape_lt; assumption.
Qed.
(** One round. *)
Lemma round_ok : forall first s Q var, queue s Q -> labeling g (gg_conf s) -> first < n -> nth first (gg_wait s) 0 = var -> var < n ->
  exists s' ext l, gg_round T OP ACC g first s = Ret s' /\ queue s' (Q ++ ext) /\ (forall u, In u (Q ++ ext) <-> In u Q \/ adjacent g var u = true) /\
    gg_conf s' = upd (gg_conf s) var l /\ labeling g (gg_conf s') /\
    forall fin, op_laws fin OP -> acc_laws fin OP ACC -> fin_gmv fin g -> best_label OP ACC g (fun u => member u Q) var (gg_conf s').
Proof.
  intros first s Q var HQ L HF EV HV. pose proof HQ as (HC & HW & HL & ND & LT & CO). pose proof (labeling_length T g _ L) as LC. pose proof (queue_le s Q HQ) as LQ. unfold gg_round. rewrite (rd_nth _ _ first 0) by (rewrite HW, app_length, repeat_length; lia). cbn [bind]. rewrite EV. rewrite (rd_nth _ (v_labels g) var 0) by exact HV. cbn [bind].
  rewrite (vals_ok var (gg_color s) (gg_conf s) HV HC LC). cbn [bind]. set (m := nth var (v_labels g) 0). assert (HLb : nth var (gg_conf s) 0 < m) by (apply in_shape_lt; assumption).
  destruct (best_ok var (fun a => value_within OP g (fun u => nth u (gg_color s) false) var (upd (gg_conf s) var a)) m (gg_conf s) LC HV HLb) as (l & E & Hl & HB). rewrite E. cbn [bind].
  destruct (white_ok var (mkGg (gg_color s) (gg_wait s) (gg_last s) (upd (gg_conf s) var l)) Q) as (s' & ext & E2 & Q2 & C2 & I2).
  { repeat split; assumption. }
  exists s', ext, l. split; [exact E2|]. split; [exact Q2|]. split; [exact I2|]. cbn in C2. split; [exact C2|]. rewrite C2. assert (LL : labeling g (upd (gg_conf s) var l)) by (apply upd_lab; assumption). split; [exact LL|].
  intros fin OL AL F a Ha. rewrite upd_upd_eq. specialize (HB fin OL AL). rewrite !(within_ext (fun u => member u Q) (fun u => nth u (gg_color s) false)) by (intros u Hu; symmetry; apply CO; exact Hu). apply HB; [|exact Ha]. intros b Hb. apply within_fin; auto. apply upd_lab; auto.
Qed.
End Gg.
