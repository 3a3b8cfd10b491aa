(** Proofs about ICM. *)
From Verif Require Import Base Values GmView GmViewSpec ShapeSpec ShapeProofs GmProofs GmViewProofs
  MovemakerModel MovemakerSpec MovemakerProofs MovemakerSearch IcmModel.
From Coq Require Import Sorted.
#[local] Arguments nth_error : simpl never.

(** A labeling that cannot be improved by relabeling one variable. *)
Definition single_opt {T : Type} (OP : oper T) (ACC : accum T) (g : gmv T) (x : list nat) (v : nat) : Prop :=
  forall s, s < nth v (v_labels g) 0 -> a_bop ACC (total OP g (relabel x [v] [s])) (total OP g x) = false.

(** Two variables share a factor. *)
Definition neighbours {T : Type} (g : gmv T) (u v : nat) : Prop :=
  exists k fc, nth_error (v_factors g) k = Some fc /\ In u (fst fc) /\ In v (fst fc).

Lemma Forall2_map_lt : forall (l : list nat) (f h : nat -> nat), (forall v, In v l -> f v < h v) -> Forall2 lt (map f l) (map h l).
Proof. induction l as [|a l IH]; intros f h H; cbn; constructor; [apply H; left; auto|apply IH; intros; apply H; right; auto]. Qed.

Section I.
Variable T : Type.
Variable OP : oper T.
Variable mult : bool.
Variable recompute : T -> bool.
Variable ACC : accum T.
Variable fin : T -> Prop.
Hypothesis OL : op_laws fin OP.
Hypothesis AL : acc_laws fin OP ACC.
Variable g : gmv T.
Hypothesis W : wf_gmv g.
Hypothesis FG : fin_gmv fin g.
Variable stop : nat -> bool.
Notation better := (a_bop ACC).
Let n := length (v_labels g).
Let nf := length (v_factors g).

Lemma v_adj_spec : forall v k, In k (v_adj T g v) <-> exists fc, nth_error (v_factors g) k = Some fc /\ In v (fst fc).
Proof.
  intros v k. unfold v_adj. rewrite filter_In, in_seq. split.
  - intros [_ H]. destruct (nth_error (v_factors g) k) as [[vis f]|]; [|discriminate]. exists (vis, f). split; auto. apply mem_In. exact H.
  - intros (fc & E & H). assert (k < length (v_factors g)) by (apply nth_error_Some; congruence). split; [lia|]. rewrite E. destruct fc as [vis f]. apply mem_In. auto.
Qed.
Lemma filter_seq_sorted : forall p m s, StronglySorted lt (filter p (seq s m)).
Proof.
  intros p. induction m as [|m IH]; intros s; [constructor|]. cbn [seq filter]. destruct (p s); auto. constructor; auto.
  apply Forall_forall. intros x Hx. apply filter_In in Hx. destruct Hx as [Hx _]. apply in_seq in Hx. lia.
Qed.
Lemma v_adj_covers : forall v, covers T g (v_adj T g v) [v].
Proof.
  intros v. split; [apply filter_seq_sorted|]. split.
  - intros k H. apply v_adj_spec in H. destruct H as (fc & E & _). apply nth_error_Some. congruence.
  - intros u k fc [<-|[]] E H. apply v_adj_spec. eauto.
Qed.

Lemma lab1 : forall x v s, labeling g x -> s < nth v (v_labels g) 0 -> labeling g (relabel x [v] [s]).
Proof. intros x v s L H. apply relabel_in_shape; auto. constructor; auto. Qed.

(** Relabeling [v] improves or not according to the factors of [v] only. *)
Lemma local_better : forall x v s, labeling g x -> s < nth v (v_labels g) 0 ->
  better (total OP g (relabel x [v] [s])) (total OP g x) =
  better (big T OP (v_adj T g v) (fun k => val T OP g k (relabel x [v] [s]))) (big T OP (v_adj T g v) (fun k => val T OP g k x)).
Proof.
  intros x v s L Hs. pose proof (lab1 x v s L Hs) as L'.
  destruct (total_change T OP fin OL g W FG (v_adj T g v) [v] x (relabel x [v] [s]) (v_adj_covers v) L L') as (r & Fr & E1 & E2).
  { intros u Hu. symmetry. apply relabel_off. auto. }
  rewrite E1, E2.
  assert (forall y, labeling g y -> fin (big T OP (v_adj T g v) (fun k => val T OP g k y))) as FB.
  { intros. apply (big_fin T OP fin OL). intros. apply (val_fin T OP fin OL); auto. }
  rewrite (ol_comm _ _ OL _ r) by auto. rewrite (ol_comm _ _ OL _ r) by auto. apply (al_mono _ _ _ AL); auto.
Qed.

(** Local optimality of [u] depends only on the labels of [u] and its neighbours. *)
Lemma single_opt_local : forall x y u, labeling g x -> labeling g y ->
  (forall v, neighbours g u v -> nth v x 0 = nth v y 0) -> single_opt OP ACC g x u -> single_opt OP ACC g y u.
Proof.
  intros x y u Lx Ly H S s Hs. specialize (S s Hs). rewrite local_better in * by auto. rewrite <- S.
  assert (V : forall z w, (forall v, neighbours g u v -> nth v z 0 = nth v w 0) ->
     big T OP (v_adj T g u) (fun k => val T OP g k z) = big T OP (v_adj T g u) (fun k => val T OP g k w)).
  { intros z w Hzw. apply big_ext. intros k Hk. apply v_adj_spec in Hk. destruct Hk as (fc & E & Hu). unfold val. rewrite E. f_equal. apply at_vars_ext.
    intros v Hv. apply Hzw. exists k, fc. auto. }
  f_equal; apply V; auto; intros v Hv; auto.
  2:{ symmetry. auto. }
  destruct (Nat.eq_dec v u) as [->|N].
  - unfold relabel. cbn. destruct (Nat.lt_ge_cases u n) as [X|X].
    + rewrite !nth_upd_eq; auto; rewrite (labeling_length _ g); auto.
    + rewrite !nth_overflow; auto; rewrite length_upd, (labeling_length _ g); auto.
  - rewrite !relabel_off by (intros [->|[]]; auto). symmetry. auto.
Qed.

(** The variable adjacency list. *)
Definition adj_ok (adj : list (list nat)) : Prop :=
  length adj = n /\ forall v s, nth_error adj v = Some s -> forall u, In u s <-> neighbours g v u /\ u <> v.

Lemma add_pair : forall out v1 v2, length out = n -> v1 < n -> v2 < n ->
  exists out', (s1 <- rd out v1 ;; out <- wr out v1 (sins v2 s1) ;; s2 <- rd out v2 ;; wr out v2 (sins v1 s2)) = Ret out' /\
    length out' = n /\ forall v u, In u (nth v out' []) <-> In u (nth v out []) \/ (v = v1 /\ u = v2) \/ (v = v2 /\ u = v1).
Proof.
  intros out v1 v2 L H1 H2. rewrite (rd_nth _ out v1 []) by lia. cbn [bind]. rewrite wr_Ret by lia. cbn [bind].
  rewrite (rd_nth _ _ v2 []) by (rewrite length_upd; lia). cbn [bind]. rewrite wr_Ret by (rewrite length_upd; lia).
  eexists. split; [reflexivity|]. split; [rewrite !length_upd; auto|]. intros v u.
  destruct (Nat.eq_dec v2 v) as [<-|N2].
  - rewrite nth_upd_eq by (rewrite length_upd; lia). rewrite sins_In. destruct (Nat.eq_dec v1 v2) as [<-|N1].
    + rewrite nth_upd_eq by lia. rewrite sins_In. intuition.
    + rewrite nth_upd_neq by auto. intuition congruence.
  - rewrite nth_upd_neq by auto. destruct (Nat.eq_dec v1 v) as [<-|N1].
    + rewrite nth_upd_eq by lia. rewrite sins_In. intuition congruence.
    + rewrite nth_upd_neq by auto. intuition congruence.
Qed.

Lemma variableAdjacencyList_ok : exists adj, variableAdjacencyList T g = Ret adj /\ adj_ok adj.
Proof.
  unfold variableAdjacencyList. fold n nf.
  (* inner loop over k *)
  assert (K : forall vis j v1, Forall (fun v => v < n) vis -> nth_error vis j = Some v1 -> forall d s out, length out = n -> s + d <= length vis ->
     exists out', foldM (fun out k => v1 <- rd vis j ;; v2 <- rd vis k ;; s1 <- rd out v1 ;; out <- wr out v1 (sins v2 s1) ;; s2 <- rd out v2 ;; wr out v2 (sins v1 s2)) (seq s d) out = Ret out' /\
       length out' = n /\ forall v u, In u (nth v out' []) <-> In u (nth v out []) \/ exists k v2, s <= k < s + d /\ nth_error vis k = Some v2 /\ ((v = v1 /\ u = v2) \/ (v = v2 /\ u = v1))).
  { intros vis j v1 HB Ej. rewrite (rd_Ret _ _ _ _ Ej). cbn [bind]. induction d as [|d IH]; intros s out L Hs.
    - exists out. split; auto. split; auto. intros v u. split; auto. intros [X|(k & v2 & X & _)]; auto. lia.
    - cbn [seq foldM].
      destruct (nth_error vis s) as [v2|] eqn:Es; [|apply nth_error_None in Es; lia]. rewrite (rd_Ret _ _ _ _ Es). cbn [bind].
      rewrite Forall_forall in HB. destruct (add_pair out v1 v2 L) as (o1 & E1 & L1 & H1); [apply HB; eapply nth_error_In; eauto..|].
      rewrite E1. cbn [bind]. destruct (IH (S s) o1 L1 ltac:(lia)) as (o2 & E2 & L2 & H2). exists o2. split; auto. split; auto.
      intros v u. rewrite H2, H1. split.
      + intros [[X|X]|(k & w & X & Y)]; auto; right; [exists s, v2|exists k, w]; split; auto; lia.
      + intros [X|(k & w & X & Y & Z)]; auto. destruct (Nat.eq_dec k s) as [->|N].
        * rewrite Es in Y. injection Y as <-. auto.
        * right. exists k, w. split; auto. lia. }
  (* one factor *)
  assert (J : forall vis, Forall (fun v => v < n) vis -> forall d s out, length out = n -> s + d = length vis ->
     exists out', foldM (fun out j => foldM (fun out k => v1 <- rd vis j ;; v2 <- rd vis k ;; s1 <- rd out v1 ;; out <- wr out v1 (sins v2 s1) ;; s2 <- rd out v2 ;; wr out v2 (sins v1 s2)) (seq (S j) (length vis - S j)) out) (seq s d) out = Ret out' /\
       length out' = n /\ forall v u, In u (nth v out' []) <-> In u (nth v out []) \/ exists j k v1 v2, s <= j < k /\ nth_error vis j = Some v1 /\ nth_error vis k = Some v2 /\ ((v = v1 /\ u = v2) \/ (v = v2 /\ u = v1))).
  { intros vis HB. induction d as [|d IH]; intros s out L Hs.
    - exists out. split; auto. split; auto. intros v u. split; auto. intros [X|(j & k & v1 & v2 & X & _ & Y & _)]; auto.
      assert (k < length vis) by (apply nth_error_Some; congruence). lia.
    - cbn [seq foldM]. destruct (nth_error vis s) as [v1|] eqn:Es; [|apply nth_error_None in Es; lia].
      destruct (K vis s v1 HB Es (length vis - S s) (S s) out L ltac:(lia)) as (o1 & E1 & L1 & H1). rewrite E1. cbn [bind].
      destruct (IH (S s) o1 L1 ltac:(lia)) as (o2 & E2 & L2 & H2). exists o2. split; auto. split; auto.
      intros v u. rewrite H2, H1. split.
      + intros [[X|(k & v2 & X & Y & Z)]|(j & k & w1 & w2 & X & Y)]; auto; right.
        * exists s, k, v1, v2. repeat split; auto; lia.
        * exists j, k, w1, w2. split; auto. lia.
      + intros [X|(j & k & w1 & w2 & X & Y & Z & U)]; auto. destruct (Nat.eq_dec j s) as [->|N].
        * left. right. rewrite Es in Y. injection Y as <-. exists k, w2. assert (k < length vis) by (apply nth_error_Some; congruence). repeat split; auto; lia.
        * right. exists j, k, w1, w2. repeat split; auto; lia. }
  assert (G : forall j, j <= nf -> exists out,
    foldM (fun out f => ' (vis, _) <- rd (v_factors g) f ;;
      foldM (fun out j => foldM (fun out k => v1 <- rd vis j ;; v2 <- rd vis k ;; s1 <- rd out v1 ;; out <- wr out v1 (sins v2 s1) ;; s2 <- rd out v2 ;; wr out v2 (sins v1 s2)) (seq (S j) (length vis - S j)) out) (seq 0 (length vis)) out)
      (seq 0 j) (repeat [] n) = Ret out /\ length out = n /\
      forall v u, In u (nth v out []) <-> u <> v /\ exists f fc, f < j /\ nth_error (v_factors g) f = Some fc /\ In v (fst fc) /\ In u (fst fc)).
  { induction j as [|j IH]; intros Hj.
    - exists (repeat [] n). split; auto. split; [apply repeat_length|]. intros v u. split.
      + intros X. destruct (Nat.lt_ge_cases v n) as [Y|Y]; [|rewrite nth_overflow in X by (rewrite repeat_length; auto); destruct X].
        assert (Z : In (nth v (repeat [] n) []) (repeat (@nil nat) n)) by (apply nth_In; rewrite repeat_length; auto). apply repeat_spec in Z. rewrite Z in X. destruct X.
      + intros [_ (f & fc & X & _)]. lia.
    - destruct IH as (out & E & L & H); [lia|]. rewrite seq_S, foldM_app, E. cbn [bind foldM]. rewrite Nat.add_0_l.
      destruct (nth_error (v_factors g) j) as [[vis fn]|] eqn:Ej; [|apply nth_error_None in Ej; fold nf in Ej; lia].
      rewrite (rd_Ret _ _ _ _ Ej). cbn [bind]. destruct (wf_nth _ _ _ _ W Ej) as [HS HB]. cbn [fst] in HS, HB. fold n in HB.
      destruct (J vis HB (length vis) 0 out L eq_refl) as (o1 & E1 & L1 & H1). exists o1. rewrite E1. split; auto. split; auto.
      pose proof (sorted_nodup _ HS) as ND.
      assert (PP : forall v u, (exists a b v1 v2, 0 <= a < b /\ nth_error vis a = Some v1 /\ nth_error vis b = Some v2 /\ ((v = v1 /\ u = v2) \/ (v = v2 /\ u = v1))) <-> u <> v /\ In v vis /\ In u vis).
      { intros v u. split.
        - intros (a & b & v1 & v2 & X & Y & Z & U).
          assert (v1 <> v2). { intros <-. assert (a = b); [|lia]. eapply (proj1 (NoDup_nth_error vis) ND); [apply nth_error_Some; congruence|congruence]. }
          apply nth_error_In in Y, Z. destruct U as [[-> ->]|[-> ->]]; auto.
        - intros (X & Y & Z). apply In_nth_error in Y, Z. destruct Y as [a Ea], Z as [b Eb].
          destruct (Nat.lt_trichotomy a b) as [C|[C|C]].
          + exists a, b, v, u. repeat split; auto; lia.
          + subst. congruence.
          + exists b, a, u, v. repeat split; auto; lia. }
      intros v u. rewrite H1, PP, H. split.
      + intros [[X (f & fc & Y & Z)]|(X & Y & Z)]; split; auto; [exists f, fc; split; auto; lia|exists j, (vis, fn); split; auto].
      + intros [X (f & fc & Y & Z & U)]. destruct (Nat.eq_dec f j) as [->|N]; [right|left; split; auto; exists f, fc; split; auto; lia].
        rewrite Ej in Z. injection Z as <-. cbn [fst] in U. destruct U. auto. }
  destruct (G nf (le_n _)) as (adj & E & L & H). exists adj. split; auto. split; auto.
  intros v s Es u. rewrite <- (nth_error_nth _ _ [] Es). rewrite H. unfold neighbours. split.
  - intros [X (f & fc & _ & Y & Z)]. split; auto. exists f, fc. destruct Z. auto.
  - intros [(f & fc & Y & Z1 & Z2) X]. split; auto. exists f, fc. split; auto. apply nth_error_Some. congruence.
Qed.

(** Not worse than before: unchanged or strictly better. *)
Definition reached (x y : list nat) : Prop := y = x \/ better (total OP g y) (total OP g x) = true.
Lemma reached_trans : forall x y z, labeling g x -> labeling g y -> labeling g z -> reached x y -> reached y z -> reached x z.
Proof.
  intros x y z Lx Ly Lz [->|H1] [->|H2]; unfold reached; auto. right.
  apply (al_trans _ _ _ AL) with (b := total OP g y); auto; apply (total_fin T OP fin OL); auto.
Qed.

(** ** First phase *)
Definition flags_false (flags : list bool) (vs : list nat) : list bool := fold_left (fun fl v => upd fl v false) vs flags.
Lemma clear_flags : forall vs flags, Forall (fun v => v < length flags) vs ->
  foldM (fun fl u => wr fl u false) vs flags = Ret (flags_false flags vs).
Proof.
  induction vs as [|v vs IH]; intros flags H; auto. apply Forall_cons_iff in H. destruct H as [Hv H]. cbn [foldM]. rewrite wr_Ret by auto. cbn [bind flags_false fold_left].
  apply IH. eapply Forall_impl; [|exact H]. intros. rewrite length_upd. auto.
Qed.
Lemma flags_false_spec : forall vs flags u, length (flags_false flags vs) = length flags /\
  (nth u (flags_false flags vs) false = true <-> nth u flags false = true /\ ~ In u vs).
Proof.
  induction vs as [|v vs IH]; intros flags u; cbn [flags_false fold_left].
  - split; auto. cbn. intuition.
  - destruct (IH (upd flags v false) u) as [L H]. unfold flags_false in L, H. split; [rewrite L; apply length_upd|]. rewrite H.
    destruct (Nat.eq_dec v u) as [<-|N].
    + destruct (Nat.lt_ge_cases v (length flags)) as [X|X]; [rewrite nth_upd_eq by auto|rewrite !nth_overflow by (rewrite ?length_upd; auto)]; cbn; intuition.
    + rewrite nth_upd_neq by auto. cbn. intuition.
Qed.

Definition ic_ok (c : icm T) : Prop := mm_ok T OP g (ic_mm c) /\ length (ic_flags c) = n.
Notation xof c := (mm_state (ic_mm c)).

Lemma label_lt : forall x v, labeling g x -> v < n -> nth v x 0 < nth v (v_labels g) 0.
Proof.
  intros x v L Hv. unfold labeling, in_shape in L. unfold n in Hv. revert v Hv. induction L; intros [|v] Hv; cbn in *; try lia; auto. apply IHL. lia.
Qed.
Lemma one_var : forall v, v < n -> distinct_vars g [v].
Proof. intros v H. split; [repeat constructor; intros []|repeat constructor; auto]. Qed.
Lemma relabel1_self : forall x v, v < length x -> relabel x [v] [nth v x 0] = x.
Proof. intros x v H. apply (relabel_self [v] x). constructor; auto. Qed.
Lemma relabel1_1 : forall x v a b, relabel (relabel x [v] [a]) [v] [b] = relabel x [v] [b].
Proof. intros. unfold relabel. cbn. apply upd_upd_eq. Qed.

(** During the scan of variable [v]: the other flags are right and the first [s] labels do not improve. *)
Definition scanning (v s : nat) (c : icm T) : Prop :=
  ic_ok c /\ (ic_exit c = false -> (forall u, u <> v -> nth u (ic_flags c) false = true -> single_opt OP ACC g (xof c) u) /\
              forall s', s' < s -> better (total OP g (relabel (xof c) [v] [s'])) (total OP g (xof c)) = false).

Lemma scan_label_ok : forall adj v s c, adj_ok adj -> v < n -> s < nth v (v_labels g) 0 -> scanning v s c ->
  exists c', scan_label T OP mult ACC g stop adj v c s = Ret c' /\ scanning v (S s) c' /\ reached (xof c) (xof c') /\
    (ic_exit c = true -> c' = c) /\
    (ic_upd c' = false -> ic_upd c = false /\ ic_flags c' = ic_flags c) /\
    ((forall k, stop k = false) -> ic_exit c = false -> ic_exit c' = false) /\
    (ic_upd c' = ic_upd c \/ better (total OP g (xof c')) (total OP g (xof c)) = true).
Proof.
  intros adj v s c [LA HA] Hv Hs [[O LF] HI]. unfold scan_label. pose proof O as (HF & L & HBuf & HE).
  pose proof (labeling_length _ g _ L) as LL. fold n in LL.
  assert (Fx : forall y, labeling g y -> fin (total OP g y)) by (intros; apply (total_fin T OP fin OL); auto).
  destruct (ic_exit c) eqn:EX.
  { exists c. split; auto. split; [split; [split; auto|congruence]|]. split; [left; auto|]. repeat split; auto; congruence. }
  destruct (HI eq_refl) as [H1 H2]. rewrite (rd_nth _ (xof c) v 0) by lia. cbn [bind].
  assert (SC : forall s0, better (total OP g (relabel (xof c) [v] [s0])) (total OP g (xof c)) = false -> s0 = s -> forall s', s' < S s -> better (total OP g (relabel (xof c) [v] [s'])) (total OP g (xof c)) = false).
  { intros s0 X -> s' Hs'. destruct (Nat.eq_dec s' s) as [->|N]; auto. apply H2. lia. }
  destruct (Nat.eqb_spec s (nth v (xof c) 0)) as [EQ|NE].
  - exists c. split; auto. split; [split; [split; auto|]|].
    + intros _. split; auto. apply (SC s); auto. rewrite EQ, relabel1_self by lia. apply (al_irrefl _ _ _ AL). auto.
    + split; [left; auto|]. repeat split; auto; congruence.
  - rewrite (valueAfterMove_ok T OP mult fin OL g W FG); [|exact O|apply one_var; auto|constructor; auto]. cbn [bind].
    unfold mm_value. rewrite HE. set (x := xof c) in *. set (x' := relabel x [v] [s]) in *.
    assert (L' : labeling g x') by (apply lab1; auto).
    destruct (better (total OP g x') (total OP g x)) eqn:B.
    + rewrite (move_ok T OP mult fin OL g W FG); [|exact O|apply one_var; auto|constructor; auto]. cbn [bind]. fold x x'.
      destruct (nth_error adj v) as [ns|] eqn:En; [|apply nth_error_None in En; lia]. rewrite (rd_Ret _ _ _ _ En). cbn [bind].
      assert (HNs : Forall (fun u => u < length (ic_flags c)) ns).
      { apply Forall_forall. intros u Hu. apply (HA v ns En) in Hu. destruct Hu as [(k & fc & A1 & A2 & A3) _]. rewrite LF.
        destruct (wf_nth _ _ _ _ W A1) as [_ X]. rewrite Forall_forall in X. apply X. auto. }
      rewrite clear_flags by auto. cbn [bind]. eexists. split; [reflexivity|]. cbn [ic_mm ic_flags ic_upd ic_exit mm_state].
      split; [split; [split|]|split; [right; auto|split; [congruence|split; [discriminate|split]]]]; auto.
      * cbn [ic_mm]. apply moved_ok; auto.
      * cbn [ic_flags]. rewrite (proj1 (flags_false_spec ns (ic_flags c) 0)). auto.
      * cbn [ic_mm ic_flags ic_exit mm_state]. intros _. split.
        -- intros u Nu Fu. apply (flags_false_spec ns (ic_flags c) u) in Fu. destruct Fu as [Fu NI]. apply (single_opt_local x); auto.
           intros w Hw. unfold x'. rewrite relabel_off; auto. intros [->|[]]. apply NI. apply (HA w ns En). split; auto.
           destruct Hw as (k & fc & A1 & A2 & A3). exists k, fc. auto.
        -- intros s' Hs'. unfold x'. rewrite relabel1_1. fold x'. destruct (Nat.eq_dec s' s) as [->|N]; [apply (al_irrefl _ _ _ AL); auto|].
           assert (Ls' : labeling g (relabel x [v] [s'])) by (apply lab1; auto; lia).
           destruct (better (total OP g (relabel x [v] [s'])) (total OP g x')) eqn:Y; auto. rewrite <- (H2 s') by lia. symmetry.
           apply (al_trans _ _ _ AL) with (b := total OP g x'); auto.
    + eexists. split; [reflexivity|]. cbn [ic_mm ic_flags ic_upd ic_exit]. split; [split; [split; auto|]|].
      * cbn [ic_mm ic_flags ic_exit]. intros _. split; auto. apply (SC s); auto.
      * split; [left; auto|]. repeat split; auto; congruence.
Qed.

Lemma scan_labels_ok : forall adj v c, adj_ok adj -> v < n -> forall d s, s + d = nth v (v_labels g) 0 -> scanning v s c ->
  exists c', foldM (scan_label T OP mult ACC g stop adj v) (seq s d) c = Ret c' /\ scanning v (s + d) c' /\ reached (xof c) (xof c') /\
    (ic_exit c = true -> c' = c) /\
    (ic_upd c' = false -> ic_upd c = false /\ ic_flags c' = ic_flags c) /\
    ((forall k, stop k = false) -> ic_exit c = false -> ic_exit c' = false) /\
    (ic_upd c' = ic_upd c \/ better (total OP g (xof c')) (total OP g (xof c)) = true).
Proof.
  intros adj v c HA Hv d. revert c. induction d as [|d IH]; intros c s Hs HI.
  - exists c. rewrite Nat.add_0_r. split; auto. split; auto. split; [left; auto|]. repeat split; auto.
  - cbn [seq foldM]. destruct (scan_label_ok adj v s c HA Hv ltac:(lia) HI) as (c1 & E1 & I1 & R1 & X1 & U1 & S1 & B1). rewrite E1. cbn [bind].
    destruct (IH c1 (S s) ltac:(lia) I1) as (c2 & E2 & I2 & R2 & X2 & U2 & S2 & B2). exists c2. split; auto.
    rewrite Nat.add_succ_comm in I2. split; auto.
    assert (L0 : labeling g (xof c)) by apply HI. assert (L1 : labeling g (xof c1)) by apply I1. assert (L2 : labeling g (xof c2)) by apply I2.
    split; [apply (reached_trans _ (xof c1)); auto|]. split; [intros X; rewrite X2; auto; rewrite X1; auto|]. split; [|split].
    + intros X. destruct (U2 X) as [Y1 Y2]. destruct (U1 Y1) as [Z1 Z2]. split; auto. congruence.
    + intros NS X. apply S2; auto.
    + destruct B1 as [B1|B1], B2 as [B2|B2].
      * left. congruence.
      * destruct R1 as [R1|R1]; [rewrite R1 in B2; right; auto|right]. apply (al_trans _ _ _ AL) with (b := total OP g (xof c1)); auto; apply (total_fin T OP fin OL); auto.
      * destruct R2 as [R2|R2]; [rewrite R2; right; auto|right]. apply (al_trans _ _ _ AL) with (b := total OP g (xof c1)); auto; apply (total_fin T OP fin OL); auto.
      * right. apply (al_trans _ _ _ AL) with (b := total OP g (xof c1)); auto; apply (total_fin T OP fin OL); auto.
Qed.

Definition flags_right (c : icm T) : Prop :=
  ic_ok c /\ (ic_exit c = false -> forall u, nth u (ic_flags c) false = true -> single_opt OP ACC g (xof c) u).

(** A step of a sweep. *)
Definition stepped (c c' : icm T) : Prop :=
  reached (xof c) (xof c') /\ (ic_exit c = true -> c' = c) /\
  ((forall k, stop k = false) -> ic_exit c = false -> ic_exit c' = false) /\
  (ic_upd c' = false -> ic_upd c = false) /\
  (ic_upd c' = ic_upd c \/ better (total OP g (xof c')) (total OP g (xof c)) = true).

Lemma stepped_refl : forall c, stepped c c.
Proof. intros c. split; [left; auto|]. repeat split; auto. Qed.
Lemma stepped_trans : forall a b c, labeling g (xof a) -> labeling g (xof b) -> labeling g (xof c) -> stepped a b -> stepped b c -> stepped a c.
Proof.
  intros a b c La Lb Lc (R1 & X1 & S1 & U1 & B1) (R2 & X2 & S2 & U2 & B2). split; [apply (reached_trans _ (xof b)); auto|].
  split; [intros X; rewrite X2; auto; rewrite X1; auto|]. split; [auto|]. split; [auto|].
  destruct B1 as [B1|B1], B2 as [B2|B2].
  - left. congruence.
  - destruct R1 as [R1|R1]; [rewrite R1 in B2; right; auto|right]. apply (al_trans _ _ _ AL) with (b := total OP g (xof b)); auto; apply (total_fin T OP fin OL); auto.
  - destruct R2 as [R2|R2]; [rewrite R2; right; auto|right]. apply (al_trans _ _ _ AL) with (b := total OP g (xof b)); auto; apply (total_fin T OP fin OL); auto.
  - right. apply (al_trans _ _ _ AL) with (b := total OP g (xof b)); auto; apply (total_fin T OP fin OL); auto.
Qed.

Lemma scan_var_ok : forall adj v c, adj_ok adj -> v < n -> flags_right c ->
  exists c', scan_var T OP mult ACC g stop adj c v = Ret c' /\ flags_right c' /\ stepped c c' /\
    (ic_upd c' = false -> ic_exit c' = false -> nth v (ic_flags c') false = true /\ forall u, nth u (ic_flags c) false = true -> nth u (ic_flags c') false = true).
Proof.
  intros adj v c HA Hv [[O LF] HI]. unfold scan_var. destruct (ic_exit c) eqn:EX.
  { exists c. split; auto. split; [split; [split; auto|congruence]|]. split; [apply stepped_refl|]. congruence. }
  rewrite (rd_nth _ (ic_flags c) v false) by lia. cbn [bind]. destruct (nth v (ic_flags c) false) eqn:Fv.
  { exists c. split; auto. split; [split; [split; auto|auto]|]. split; [apply stepped_refl|]. auto. }
  rewrite (rd_nth _ (v_labels g) v 0) by auto. cbn [bind].
  assert (SC : scanning v 0 c) by (split; [split; auto|]; intros _; split; [auto|lia]).
  destruct (scan_labels_ok adj v c HA Hv (nth v (v_labels g) 0) 0 eq_refl SC) as (c1 & E1 & [[O1 LF1] I1] & R1 & X1 & U1 & S1 & B1). rewrite E1. cbn [bind].
  rewrite wr_Ret by lia. cbn [bind]. eexists. split; [reflexivity|]. split; [split; [split|]|split]; cbn [ic_mm ic_flags ic_upd ic_exit]; auto.
  - rewrite length_upd. auto.
  - intros X u Fu. destruct (I1 X) as [J1 J2]. destruct (Nat.eq_dec u v) as [->|N]; [intros s Hs; apply J2; lia|].
    rewrite nth_upd_neq in Fu by auto. auto.
  - split; cbn [ic_mm]; auto. split; [congruence|]. split; [auto|]. split; [intros X; apply U1; auto|auto].
  - intros X Y. destruct (U1 X) as [_ F]. rewrite nth_upd_eq by lia. split; auto. intros u Fu. rewrite F.
    destruct (Nat.eq_dec v u) as [->|N]; [congruence|]. rewrite nth_upd_neq by auto. auto.
Qed.

Lemma sweep_ok : forall adj, adj_ok adj -> forall d s c, s + d = n -> flags_right c ->
  (ic_upd c = false -> ic_exit c = false -> forall u, u < s -> nth u (ic_flags c) false = true) ->
  exists c', foldM (scan_var T OP mult ACC g stop adj) (seq s d) c = Ret c' /\ flags_right c' /\ stepped c c' /\
    (ic_upd c' = false -> ic_exit c' = false -> forall u, u < n -> nth u (ic_flags c') false = true).
Proof.
  intros adj HA. induction d as [|d IH]; intros s c Hs HI HU.
  - exists c. split; auto. split; auto. split; [apply stepped_refl|]. replace n with s by lia. auto.
  - cbn [seq foldM]. destruct (scan_var_ok adj s c HA ltac:(lia) HI) as (c1 & E1 & I1 & P1 & F1). rewrite E1. cbn [bind].
    destruct (IH (S s) c1 ltac:(lia) I1) as (c2 & E2 & I2 & P2 & F2).
    + intros X Y u Hu. destruct (F1 X Y) as [G1 G2]. destruct (Nat.eq_dec u s) as [->|N]; auto. apply G2. apply HU; [apply P1; auto| |lia].
      destruct P1 as (_ & PX & _). destruct (ic_exit c) eqn:EC; auto. rewrite PX in Y by auto. congruence.
    + exists c2. split; auto. split; auto. split; auto. eapply stepped_trans; eauto; [apply HI|apply I1|apply I2].
Qed.

(** ** Termination: the number of better labelings decreases *)
Definition rank (x : list nat) : nat :=
  length (filter (fun k => better (total OP g (coord_of (v_labels g) k)) (total OP g x)) (seq 0 (rounds g))).
Lemma rank_bound : forall x, rank x <= rounds g.
Proof.
  intros. unfold rank. rewrite <- (seq_length (rounds g) 0) at 2. generalize (seq 0 (rounds g)). intros l.
  induction l as [|a l IH]; auto. cbn. destruct (better _ _); cbn; lia.
Qed.
Lemma filter_length_lt : forall (p q : nat -> bool) l k, (forall i, p i = true -> q i = true) -> In k l -> p k = false -> q k = true ->
  length (filter p l) < length (filter q l).
Proof.
  intros p q l k H. assert (LE : forall l, length (filter p l) <= length (filter q l)).
  { induction l0 as [|a l0 IH]; auto. cbn. destruct (p a) eqn:Pa; [rewrite (H a Pa); cbn; lia|]. destruct (q a); cbn; lia. }
  induction l as [|a l IH]; intros HI Pk Qk; [destruct HI|]. cbn. destruct HI as [->|HI].
  - rewrite Pk, Qk. cbn. specialize (LE l). lia.
  - specialize (IH HI Pk Qk). destruct (p a) eqn:Pa; [rewrite (H a Pa); cbn; lia|]. destruct (q a); cbn; lia.
Qed.
Lemma rank_lt : forall x y, labeling g x -> labeling g y -> better (total OP g y) (total OP g x) = true -> rank y < rank x.
Proof.
  intros x y Lx Ly B. unfold rank. assert (P : positive (v_labels g)) by apply W.
  assert (Fk : forall k, fin (total OP g (coord_of (v_labels g) k))) by (intros; apply (total_fin T OP fin OL); auto; apply coord_of_in_shape; auto).
  assert (Fx : forall y, labeling g y -> fin (total OP g y)) by (intros; apply (total_fin T OP fin OL); auto).
  apply (filter_length_lt _ _ _ (index_of (v_labels g) y)).
  - intros i Hi. apply (al_trans _ _ _ AL) with (b := total OP g y); auto.
  - apply in_seq. pose proof (index_of_lt _ _ Ly). unfold rounds. lia.
  - rewrite coord_of_index by auto. apply (al_irrefl _ _ _ AL). auto.
  - rewrite coord_of_index by auto. auto.
Qed.

(** Repeated sweeps. *)
Lemma sweeps_ok : forall (P Q : icm T -> Prop) sweep,
  (forall c, P c -> labeling g (xof c)) ->
  (forall c upd, P c -> P (mkIcm (ic_mm c) (ic_flags c) upd (ic_calls c) (ic_exit c))) ->
  (forall c, P c -> ic_upd c = false -> exists c', sweep c = Ret c' /\ P c' /\ stepped c c' /\ (ic_upd c' = false -> ic_exit c' = false -> Q c')) ->
  forall fuel c, P c -> (ic_upd c = true \/ (ic_upd c = false /\ (ic_exit c = false -> Q c))) ->
    rank (xof c) + (if ic_upd c then 1 else 0) < fuel ->
  exists c', sweeps T fuel sweep c = Ret c' /\ P c' /\ reached (xof c) (xof c') /\
    ((forall k, stop k = false) -> ic_exit c = false -> ic_exit c' = false) /\ (ic_exit c' = false -> Q c').
Proof.
  intros P Q sweep PL PU HS. induction fuel as [|fuel IH]; intros c Pc HU Hf; [lia|]. cbn [sweeps].
  destruct (ic_upd c && negb (ic_exit c)) eqn:B.
  - apply andb_true_iff in B. destruct B as [B1 B2]. rewrite B1 in Hf.
    destruct (HS (mkIcm (ic_mm c) (ic_flags c) false (ic_calls c) (ic_exit c)) (PU _ _ Pc) eq_refl) as (c1 & E1 & P1 & (R1 & X1 & S1 & U1 & D1) & Q1).
    rewrite E1. cbn [bind]. cbn [ic_mm ic_exit ic_upd] in *.
    assert (HR : rank (xof c1) + (if ic_upd c1 then 1 else 0) < fuel).
    { destruct D1 as [D1|D1].
      - rewrite D1. destruct R1 as [->|R1]; [lia|]. apply rank_lt in R1; auto. lia.
      - apply rank_lt in D1; auto. destruct (ic_upd c1); lia. }
    destruct (IH c1 P1) as (c2 & E2 & P2 & R2 & S2 & Q2); auto.
    { destruct (ic_upd c1) eqn:Z; auto. }
    exists c2. split; auto. split; auto. split; [apply (reached_trans _ (xof c1)); auto|]. split; auto.
  - exists c. split; auto. split; auto. split; [left; auto|]. split; auto.
    intros X. destruct HU as [HU|[HU HQ]]; auto. rewrite HU, X in B. discriminate.
Qed.

Lemma single_phase_ok : forall fuel m, S (rounds g) < fuel -> mm_ok T OP g m ->
  exists c, single_phase T OP mult ACC g stop fuel m = Ret c /\ ic_ok c /\ reached (mm_state m) (xof c) /\
    ((forall k, stop k = false) -> ic_exit c = false) /\
    (ic_exit c = false -> forall u, u < n -> single_opt OP ACC g (xof c) u).
Proof.
  intros fuel m Hf O. unfold single_phase. destruct variableAdjacencyList_ok as (adj & EA & HA). rewrite EA. cbn [bind]. fold n.
  destruct (sweeps_ok flags_right (fun c => forall u, u < n -> single_opt OP ACC g (xof c) u)
     (fun c => foldM (scan_var T OP mult ACC g stop adj) (seq 0 n) c)) with (fuel := fuel) (c := mkIcm m (repeat false n) true 0 false)
    as (c & E & P & R & S & Q).
  - intros c Pc. apply Pc.
  - intros c upd Pc. exact Pc.
  - intros c Pc U. destruct (sweep_ok adj HA n 0 c eq_refl Pc) as (c' & E1 & P1 & S1 & F1); [lia|]. exists c'. split; auto. split; auto. split; auto.
    intros X Y u Hu. apply P1; auto.
  - split; [split; auto; cbn; apply repeat_length|]. cbn [ic_flags ic_exit ic_mm]. intros _ u Hu.
    destruct (Nat.lt_ge_cases u n) as [X|X]; [|rewrite nth_overflow in Hu by (rewrite repeat_length; auto); discriminate].
    assert (Z : In (nth u (repeat false n) false) (repeat false n)) by (apply nth_In; rewrite repeat_length; auto). apply repeat_spec in Z. congruence.
  - left. auto.
  - cbn [ic_upd ic_mm]. pose proof (rank_bound (mm_state m)). lia.
  - exists c. split; auto. split; [apply P|]. split; auto.
Qed.

(** ** Second phase *)
Definition pending (c : icm T) (u : nat) : Prop :=
  exists k fc, nth_error (v_factors g) k = Some fc /\ 1 < length (fst fc) /\ In u (fst fc) /\ nth k (ic_flags c) false = false.
Definition inv2 (c : icm T) : Prop :=
  mm_ok T OP g (ic_mm c) /\ length (ic_flags c) = nf /\
  (ic_exit c = false -> forall u, u < n -> single_opt OP ACC g (xof c) u \/ pending c u).

Lemma clear_changed : forall vis old x, Forall (fun v => v < n) vis -> length x = n -> length old = length vis ->
  forall j flags, j <= length vis -> length flags = nf ->
  exists fl', foldM (fun fl j => v <- rd vis j ;; o <- rd old j ;; s <- rd x v ;;
                     if o =? s then Ret fl else foldM (fun fl ff => wr fl ff false) (v_adj T g v) fl) (seq 0 j) flags = Ret fl' /\
    length fl' = nf /\ forall k, nth k fl' false = true -> nth k flags false = true /\
       forall i v, i < j -> nth_error vis i = Some v -> nth i old 0 <> nth v x 0 -> ~ In k (v_adj T g v).
Proof.
  intros vis old x HB Lx Lo. induction j as [|j IH]; intros flags Hj Lf.
  - exists flags. split; auto. split; auto. intros k Hk. split; auto. intros; lia.
  - destruct (IH flags ltac:(lia) Lf) as (f1 & E1 & L1 & H1). rewrite seq_S, foldM_app, E1. cbn [bind foldM]. rewrite Nat.add_0_l.
    destruct (nth_error vis j) as [v|] eqn:Ev; [|apply nth_error_None in Ev; lia]. rewrite (rd_Ret _ _ _ _ Ev). cbn [bind].
    assert (Hv : v < n) by (rewrite Forall_forall in HB; apply HB; eapply nth_error_In; eauto).
    rewrite (rd_nth _ old j 0) by lia. cbn [bind]. rewrite (rd_nth _ x v 0) by lia. cbn [bind].
    destruct (Nat.eqb_spec (nth j old 0) (nth v x 0)) as [EQ|NE].
    + exists f1. cbn [bind]. split; auto. split; auto. intros k Hk. destruct (H1 k Hk) as [A B]. split; auto.
      intros i w Hi Ew Nw. destruct (Nat.eq_dec i j) as [->|N]; [rewrite Ev in Ew; injection Ew as <-; congruence|]. apply (B i w); auto. lia.
    + rewrite clear_flags.
      2:{ apply Forall_forall. intros k Hk. apply v_adj_spec in Hk. destruct Hk as (fc & A & _). rewrite L1. apply nth_error_Some. congruence. }
      cbn [bind]. eexists. split; [reflexivity|]. split; [rewrite (proj1 (flags_false_spec _ _ 0)); auto|].
      intros k Hk. apply flags_false_spec in Hk. destruct Hk as [Hk NI]. destruct (H1 k Hk) as [A B]. split; auto.
      intros i w Hi Ew Nw. destruct (Nat.eq_dec i j) as [->|N]; [rewrite Ev in Ew; injection Ew as <-; auto|]. apply (B i w); auto. lia.
Qed.

Lemma joint_single : forall x y vis u, labeling g x -> labeling g y -> NoDup vis -> Forall (fun v => v < n) vis ->
  (forall v, ~ In v vis -> nth v y 0 = nth v x 0) ->
  (forall c, in_shape (labels_of g vis) c -> better (total OP g (relabel x vis c)) (total OP g y) = false) ->
  In u vis -> single_opt OP ACC g y u.
Proof.
  intros x y vis u Lx Ly ND HB HO HJ Hu s Hs. pose proof (lab1 y u s Ly Hs) as L'.
  rewrite (off_eq vis x (relabel y [u] [s])); auto.
  - apply HJ. apply Forall2_map_lt.
    intros v Hv. apply label_lt; auto. rewrite Forall_forall in HB. auto.
  - rewrite (labeling_length _ g _ Lx). auto.
  - rewrite (labeling_length _ g _ Lx), (labeling_length _ g _ L'). auto.
  - intros v Hv. rewrite relabel_off; auto. intros [->|[]]. auto.
Qed.

Lemma scan_factor_ok : forall fuel f c, rounds g <= fuel -> f < nf -> inv2 c ->
  exists c', scan_factor T OP recompute ACC g stop fuel c f = Ret c' /\ inv2 c' /\ stepped c c' /\
    (ic_upd c' = false -> ic_exit c' = false ->
       (forall fc, nth_error (v_factors g) f = Some fc -> 1 < length (fst fc) -> nth f (ic_flags c') false = true) /\
       forall k, nth k (ic_flags c) false = true -> nth k (ic_flags c') false = true).
Proof.
  intros fuel f c Hfu Hf (O & LF & HI). unfold scan_factor. destruct (ic_exit c) eqn:EX.
  { exists c. split; auto. split; [split; [auto|split; [auto|congruence]]|]. split; [apply stepped_refl|]. congruence. }
  rewrite (rd_nth _ (ic_flags c) f false) by lia. cbn [bind].
  destruct (nth_error (v_factors g) f) as [[vis fn]|] eqn:Ef; [|apply nth_error_None in Ef; fold nf in Ef; lia].
  rewrite (rd_Ret _ _ _ _ Ef). cbn [bind]. destruct (wf_nth _ _ _ _ W Ef) as [HS HB]. cbn [fst] in HS, HB. fold n in HB.
  destruct (nth f (ic_flags c) false || negb (1 <? length vis)) eqn:FL.
  { exists c. split; auto. split; [split; auto|]. split; [apply stepped_refl|]. intros _ _. split; auto. intros fc X Y. injection X as <-. cbn [fst] in Y.
    apply orb_true_iff in FL. destruct FL as [FL|FL]; auto. apply Nat.ltb_lt in Y. rewrite Y in FL. discriminate. }
  apply orb_false_iff in FL. destruct FL as [FL LO]. apply negb_false_iff, Nat.ltb_lt in LO.
  pose proof O as (HFv & L & HBuf & HE). pose proof (labeling_length _ g _ L) as LL. fold n in LL.
  rewrite mapM_rd by (rewrite LL; auto). unfold at_vars. cbn [bind].
  assert (DV : distinct_vars g vis) by (split; [apply sorted_nodup; auto|auto]).
  destruct (moveOptimally_ok T OP recompute ACC fin OL AL g W FG (ic_mm c) vis fuel O DV) as (m' & EM & O' & HJ & HM).
  { intros ->. cbn in LO. lia. }
  { etransitivity; [apply (labels_of_size T g W vis DV)|auto]. }
  rewrite EM. cbn [bind]. pose proof O' as (HFv' & L' & HBuf' & HE'). pose proof (labeling_length _ g _ L') as LL'. fold n in LL'.
  rewrite HE'. unfold mm_value. rewrite HE.
  assert (OFF : forall v, ~ In v vis -> nth v (mm_state m') 0 = nth v (xof c) 0).
  { intros v Hv. destruct HM as [->|(d & _ & -> & _)]; auto. apply relabel_off. auto. }
  assert (JS : forall u, In u vis -> single_opt OP ACC g (mm_state m') u) by (intros u Hu; apply (joint_single (xof c) _ vis); auto; apply DV).
  destruct (better (total OP g (mm_state m')) (total OP g (xof c))) eqn:B.
  - destruct (stop (ic_calls c)) eqn:ST.
    + eexists. split; [reflexivity|]. split; [split; [auto|split; [auto|discriminate]]|]. cbn [ic_mm ic_exit ic_upd ic_flags]. split; [|discriminate].
      split; [right; auto|]. split; [congruence|]. split; [intros NS; rewrite NS in ST; discriminate|]. split; [discriminate|]. right. auto.
    + destruct (clear_changed vis (map (fun v => nth v (xof c) 0) vis) (mm_state m') HB LL' ltac:(apply map_length) (length vis) (ic_flags c) (le_n _) LF) as (fl & E1 & L1 & H1).
      rewrite E1. cbn [bind]. rewrite wr_Ret by lia. cbn [bind]. eexists. split; [reflexivity|].
      split; [split; [auto|split]|]; cbn [ic_mm ic_exit ic_upd ic_flags].
      * rewrite length_upd. auto.
      * intros _ u Hu. destruct (in_dec Nat.eq_dec u vis) as [IU|IU]; [left; auto|].
        (* is some changed variable a neighbour of u? *)
        destruct (existsb (fun k => negb (nth k (upd fl f true) false) && match nth_error (v_factors g) k with Some fc => mem u (fst fc) && (1 <? length (fst fc)) | None => false end) (seq 0 nf)) eqn:EE.
        -- right. apply existsb_exists in EE. destruct EE as (k & Hk & EE). apply andb_true_iff in EE. destruct EE as [E2 E3]. apply negb_true_iff in E2.
           destruct (nth_error (v_factors g) k) as [fc|] eqn:Ek; [|discriminate]. apply andb_true_iff in E3. destruct E3 as [E3 E4].
           apply mem_In in E3. apply Nat.ltb_lt in E4. exists k, fc. auto.
        -- left. assert (NP : forall k fc, nth_error (v_factors g) k = Some fc -> In u (fst fc) -> 1 < length (fst fc) -> nth k (upd fl f true) false = true).
           { intros k fc Ek Ik Lk. destruct (nth k (upd fl f true) false) eqn:Z; auto. exfalso.
             assert (X : existsb (fun k => negb (nth k (upd fl f true) false) && match nth_error (v_factors g) k with Some fc => mem u (fst fc) && (1 <? length (fst fc)) | None => false end) (seq 0 nf) = true); [|congruence].
             apply existsb_exists. exists k. split; [apply in_seq; assert (k < nf) by (apply nth_error_Some; congruence); lia|].
             rewrite Z, Ek. cbn [negb andb]. apply andb_true_iff. split; [apply mem_In; auto|apply Nat.ltb_lt; auto]. }
           assert (NPf : forall k fc, nth_error (v_factors g) k = Some fc -> In u (fst fc) -> 1 < length (fst fc) -> nth k fl false = true).
           { intros k fc Ek Ik Lk. pose proof (NP k fc Ek Ik Lk) as X. destruct (Nat.eq_dec f k) as [<-|N]; [|rewrite nth_upd_neq in X; auto].
             rewrite Ef in Ek. injection Ek as <-. contradiction. }
           destruct (HI eq_refl u Hu) as [SO|(k & fc & Ek & Lk & Ik & Fk)].
           ++ apply (single_opt_local (xof c)); auto. intros v (k & fc & Ek & Ik & Iv).
              destruct (Nat.eq_dec v u) as [->|Nvu]; [symmetry; apply OFF; auto|].
              assert (Lk : 1 < length (fst fc)).
              { destruct (fst fc) as [|a [|b r]]; cbn in *; lia. }
              pose proof (NPf k fc Ek Ik Lk) as X. apply H1 in X. destruct X as [_ X].
              destruct (in_dec Nat.eq_dec v vis) as [IV|IV]; [|symmetry; apply OFF; auto].
              apply In_nth_error in IV. destruct IV as [i Ei]. assert (Hi : i < length vis) by (apply nth_error_Some; congruence).
              destruct (Nat.eq_dec (nth v (xof c) 0) (nth v (mm_state m') 0)) as [Y|Y]; auto. exfalso. apply (X i v Hi Ei).
              ** rewrite (nth_indep _ 0 (nth 0 (xof c) 0)) by (rewrite map_length; auto). rewrite (map_nth (fun v => nth v (xof c) 0)).
                 rewrite (nth_error_nth _ _ _ Ei). auto.
              ** apply v_adj_spec. eauto.
           ++ pose proof (NPf k fc Ek Ik Lk) as X. apply H1 in X. destruct X as [X _]. congruence.
      * split; [|discriminate]. split; [right; auto|]. split; [congruence|]. split; [auto|]. split; [discriminate|]. right. auto.
  - assert (EQ : mm_state m' = xof c) by (destruct HM as [X|(d & _ & _ & X)]; auto; congruence).
    rewrite wr_Ret by lia. cbn [bind]. eexists. split; [reflexivity|]. split; [split; [auto|split]|]; cbn [ic_mm ic_exit ic_upd ic_flags].
    + rewrite length_upd. auto.
    + intros _ u Hu. rewrite EQ. destruct (in_dec Nat.eq_dec u vis) as [IU|IU]; [left; rewrite <- EQ; auto|].
      destruct (HI eq_refl u Hu) as [SO|(k & fc & Ek & Lk & Ik & Fk)]; auto. right. exists k, fc. repeat split; auto. cbn [ic_flags].
      destruct (Nat.eq_dec f k) as [<-|N]; [|rewrite nth_upd_neq; auto]. rewrite Ef in Ek. injection Ek as <-. contradiction.
    + split; [split; [left; auto|split; [congruence|split; [auto|split; [auto|left; auto]]]]|]. intros _ _. split.
      * intros fc _ _. apply nth_upd_eq. lia.
      * intros k Hk. destruct (Nat.eq_dec f k) as [<-|N]; [apply nth_upd_eq; lia|rewrite nth_upd_neq; auto].
Qed.

Lemma sweep2_ok : forall fuel, rounds g <= fuel -> forall d s c, s + d = nf -> inv2 c ->
  (ic_upd c = false -> ic_exit c = false -> forall k fc, k < s -> nth_error (v_factors g) k = Some fc -> 1 < length (fst fc) -> nth k (ic_flags c) false = true) ->
  exists c', foldM (scan_factor T OP recompute ACC g stop fuel) (seq s d) c = Ret c' /\ inv2 c' /\ stepped c c' /\
    (ic_upd c' = false -> ic_exit c' = false -> forall k fc, nth_error (v_factors g) k = Some fc -> 1 < length (fst fc) -> nth k (ic_flags c') false = true).
Proof.
  intros fuel Hfu. induction d as [|d IH]; intros s c Hs HI HU.
  - exists c. split; auto. split; auto. split; [apply stepped_refl|]. intros X Y k fc Ek Lk. apply (HU X Y k fc); auto.
    assert (k < nf) by (apply nth_error_Some; congruence). lia.
  - cbn [seq foldM]. destruct (scan_factor_ok fuel s c Hfu ltac:(lia) HI) as (c1 & E1 & I1 & P1 & F1). rewrite E1. cbn [bind].
    destruct (IH (S s) c1 ltac:(lia) I1) as (c2 & E2 & I2 & P2 & F2).
    + intros X Y k fc Hk Ek Lk. destruct (F1 X Y) as [G1 G2]. destruct (Nat.eq_dec k s) as [->|N]; [eapply G1; eauto|]. apply G2. apply (HU) with (fc := fc); auto; [apply P1; auto| |lia].
      destruct P1 as (_ & PX & _). destruct (ic_exit c) eqn:EC; auto. rewrite PX in Y by auto. congruence.
    + exists c2. split; auto. split; auto. split; auto. apply (stepped_trans _ c1); auto; [apply HI|apply I1|apply I2].
Qed.

Lemma factor_phase_ok : forall fuel c, S (rounds g) < fuel -> mm_ok T OP g (ic_mm c) ->
  (ic_exit c = false -> forall u, u < n -> single_opt OP ACC g (xof c) u) ->
  exists c', factor_phase T OP recompute ACC g stop fuel c = Ret c' /\ mm_ok T OP g (ic_mm c') /\ reached (xof c) (xof c') /\
    ((forall k, stop k = false) -> ic_exit c = false -> ic_exit c' = false) /\
    (ic_exit c' = false -> forall u, u < n -> single_opt OP ACC g (xof c') u).
Proof.
  intros fuel c Hf O HS. unfold factor_phase. fold nf.
  destruct (sweeps_ok inv2 (fun c => forall u, u < n -> single_opt OP ACC g (xof c) u)
     (fun c => foldM (scan_factor T OP recompute ACC g stop fuel) (seq 0 nf) c)) with (fuel := fuel) (c := mkIcm (ic_mm c) (repeat false nf) true (ic_calls c) (ic_exit c))
    as (c' & E & P & R & S & Q).
  - intros c0 Pc. apply Pc.
  - intros c0 upd Pc. exact Pc.
  - intros c0 Pc U. destruct (sweep2_ok fuel ltac:(lia) nf 0 c0 eq_refl Pc) as (c' & E1 & P1 & S1 & F1); [lia|]. exists c'. split; auto. split; auto. split; auto.
    intros X Y u Hu. destruct P1 as (_ & _ & P1). destruct (P1 Y u Hu) as [SO|(k & fc & Ek & Lk & Ik & Fk)]; auto.
    rewrite (F1 X Y k fc Ek Lk) in Fk. discriminate.
  - split; [auto|split; [cbn; apply repeat_length|]]. cbn [ic_flags ic_exit ic_mm]. intros X u Hu. left. auto.
  - left. auto.
  - cbn [ic_upd ic_mm]. pose proof (rank_bound (xof c)). lia.
  - exists c'. split; auto. split; [apply P|]. split; auto.
Qed.

Lemma icm_infer_ok : forall fuel factor m, S (rounds g) < fuel -> mm_ok T OP g m ->
  exists c, icm_infer T OP mult recompute ACC g stop fuel factor m = Ret c /\ mm_ok T OP g (ic_mm c) /\ reached (mm_state m) (xof c) /\
    ((forall k, stop k = false) -> ic_exit c = false) /\
    (ic_exit c = false -> forall u, u < n -> single_opt OP ACC g (xof c) u).
Proof.
  intros fuel factor m Hf O. unfold icm_infer. destruct (single_phase_ok fuel m Hf O) as (c & E & [O1 _] & R & S & Q). rewrite E. cbn [bind].
  destruct factor; [|exists c; auto]. destruct (factor_phase_ok fuel c Hf O1 Q) as (c' & E' & O2 & R' & S' & Q').
  exists c'. split; auto. split; auto. split; [apply (reached_trans _ (xof c)); auto; [apply O|apply O1|apply O2]|]. auto.
Qed.
End I.
