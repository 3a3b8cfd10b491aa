(** Proofs about Swendsen-Wang sampling: the probabilities of the edges. *)
From Coq Require Import QArith Qcanon Sorting.Sorted Lqa.
From Verif Require MpState GmProofs.
From Verif Require Import Base Values GmView GmViewSpec GmViewProofs ShapeSpec ShapeProofs MovemakerModel MovemakerSpec MovemakerProofs IcmModel IcmProofs PartitionModel ConstraintModel HoeProofs TentacleSim SwModel SwSpec.
Open Scope nat_scope.

Section Proofs.
Variable T : Type.
Variable OP : oper T.
Variable fin : T -> Prop.
Hypothesis OL : op_laws fin OP.
Variable prob : T -> Qc.
Hypothesis PN : forall t, (0 <= prob t)%Qc.
Variable g : gmv T.
Hypothesis W : wf_gmv g.
Hypothesis FG : fin_gmv fin g.
Notation n := (length (v_labels g)).
Variable par : swpar.

Definition conn_step (s : list nat) (f : nat) : outcome (list nat) := ' (vis, _) <- rd (v_factors g) f ;; Ret (sunion s vis).
Lemma conn_ok : forall l s, (forall k, In k l -> k < length (v_factors g)) -> StronglySorted lt s ->
  exists s', foldM conn_step l s = Ret s' /\ StronglySorted lt s' /\ forall v, In v s' <-> In v s \/ exists k fc, In k l /\ nth_error (v_factors g) k = Some fc /\ In v (fst fc).
Proof.
  induction l as [|k l IH]; intros s HB SS; cbn [foldM].
  - exists s. split; auto. split; auto. intros v. split; auto. intros [H|(k & _ & [] & _)]; auto.
  - destruct (nth_error (v_factors g) k) as [[vis f]|] eqn:E; [|apply nth_error_None in E; specialize (HB k (or_introl eq_refl)); lia].
    assert (EK : conn_step s k = Ret (sunion s vis)) by (unfold conn_step; rewrite (rd_Ret _ _ _ _ E); auto). rewrite EK. cbn [bind]. destruct (sunion_spec vis s SS) as [S1 I1].
    destruct (IH (sunion s vis)) as (s' & E' & S' & I'); auto. { intros; apply HB; right; auto. }
    exists s'. split; [exact E'|]. split; auto. intros v. rewrite I', I1. split.
    + intros [[H|H]|(k' & fc & A & B & C)]; auto. { right. exists k, (vis, f). split; [left; auto|]. auto. } right. exists k', fc. split; [right; auto|auto].
    + intros [H|(k' & fc & [<-|A] & B & C)]; auto. { rewrite E in B. injection B as <-. auto. } right. exists k', fc. auto.
Qed.
Lemma adj_lt : forall u k, In k (v_adj T g u) -> k < length (v_factors g).
Proof. intros u k H. apply (v_adj_spec T g) in H. destruct H as (fc & E & _). apply nth_error_Some. congruence. Qed.

(** The factors of two variables and their variables *)
Lemma local_ok : forall u v, u < n -> v < n -> exists factors conn,
  sunion (sunion [] (v_adj T g u)) (v_adj T g v) = factors /\ StronglySorted lt factors /\ (forall k, In k factors <-> In k (v_adj T g u) \/ In k (v_adj T g v)) /\
  foldM conn_step (v_adj T g u ++ v_adj T g v) [] = Ret conn /\ StronglySorted lt conn /\
  (forall w, In w conn <-> exists k fc, (In k (v_adj T g u) \/ In k (v_adj T g v)) /\ nth_error (v_factors g) k = Some fc /\ In w (fst fc)) /\ Forall (fun w => w < n) conn.
Proof.
  intros u v Hu Hv. destruct (sunion_spec (v_adj T g u) []) as [S1 I1]; [constructor|]. destruct (sunion_spec (v_adj T g v) _ S1) as [S2 I2].
  destruct (conn_ok (v_adj T g u ++ v_adj T g v) []) as (conn & E & S3 & I3); [|constructor|].
  { intros k H. apply in_app_or in H. destruct H; eapply adj_lt; eauto. }
  eexists _, conn. split; [reflexivity|]. split; auto. split. { intros k. rewrite I2, I1. cbn. tauto. } split; auto. split; auto.
  assert (IC : forall w, In w conn <-> exists k fc, (In k (v_adj T g u) \/ In k (v_adj T g v)) /\ nth_error (v_factors g) k = Some fc /\ In w (fst fc)).
  { intros w. rewrite I3. split.
    - intros [[]|(k & fc & A & B & C)]. apply in_app_or in A. eauto 6.
    - intros (k & fc & A & B & C). right. exists k, fc. split; [apply in_or_app; auto|auto]. }
  split; auto. rewrite Forall_forall. intros w H. apply IC in H. destruct H as (k & fc & _ & B & C). destruct W as [WF _]. rewrite Forall_forall in WF. apply nth_error_In in B. destruct (WF _ B) as [_ F]. rewrite Forall_forall in F. auto.
Qed.

Definition sums (factors conn shape : list nat) (u v : nat) (l : list nat) (p : Qc * Qc) : outcome (Qc * Qc) :=
  foldM (fun (p : Qc * Qc) k =>
                  let x := sw_scatter T g conn (coord_of shape k) in
                  value <- evaluateFactors T OP g factors x ;;
                  lu <- rd x u ;; lv <- rd x v ;;
                  Ret (if lu =? lv then (fst p + prob value, snd p)%Qc else (fst p, snd p + prob value)%Qc)) l p.
Lemma pos_nth : forall v, v < n -> 0 < nth v (v_labels g) 0.
Proof. intros v Hv. destruct W as [_ P]. unfold positive in P. rewrite Forall_forall in P. apply P. apply nth_In. auto. Qed.
Lemma scatter_labeling : forall conn k, Forall (fun w => w < n) conn -> labeling g (sw_scatter T g conn (coord_of (labels_of g conn) k)).
Proof.
  intros conn k F. change (labeling g (relabel (repeat 0 n) conn (coord_of (labels_of g conn) k))). apply (relabel_labeling T g); auto. { apply zero_labeling; auto. }
  apply coord_of_in_shape. unfold positive, labels_of. rewrite Forall_map. rewrite Forall_forall in *. intros. apply pos_nth. auto.
Qed.
Lemma sums_ok : forall factors conn u v l p, u < n -> v < n -> Forall (fun w => w < n) conn -> (forall k, In k factors -> k < length (v_factors g)) -> (0 <= fst p)%Qc -> (0 <= snd p)%Qc ->
  exists p', sums factors conn (labels_of g conn) u v l p = Ret p' /\ (0 <= fst p')%Qc /\ (0 <= snd p')%Qc.
Proof.
  intros factors conn u v l. induction l as [|k l IH]; intros p Hu Hv FC HF P1 P2; cbn [sums foldM]. { exists p. auto. }
  pose proof (scatter_labeling conn k FC) as LX. pose proof (labeling_length _ g _ LX) as LL. cbv zeta. rewrite (big_evaluate T OP fin OL g W FG) by auto. cbn [bind].
  rewrite !(rd_nth _ _ _ 0) by lia. cbn [bind]. apply IH; auto; destruct (_ =? _); cbn [fst snd]; auto.
  - generalize (PN (big T OP factors (fun k0 => val T OP g k0 (sw_scatter T g conn (coord_of (labels_of g conn) k))))). intros. qlra.
  - generalize (PN (big T OP factors (fun k0 => val T OP g k0 (sw_scatter T g conn (coord_of (labels_of g conn) k))))). intros. qlra.
Qed.
Lemma mapM_labels : forall conn, Forall (fun w => w < n) conn -> mapM (rd (v_labels g)) conn = Ret (labels_of g conn).
Proof. intros conn F. unfold labels_of. induction F as [|w l H F IH]; auto. cbn [mapM map]. rewrite (rd_nth _ _ w 0) by auto. cbn [bind]. rewrite IH. auto. Qed.
Lemma share : forall a b : Qc, (0 <= a)%Qc -> (0 <= b)%Qc -> (a + b)%Qc <> 0%Qc -> (0 <= b / (a + b))%Qc /\ (a / (a + b) = 1 - b / (a + b))%Qc.
Proof.
  intros a b A B N. assert (P : (0 < a + b)%Qc). { destruct (Qclt_le_dec 0 (a + b)) as [H|H]; auto. exfalso. apply N. apply Qcle_antisym; auto. qlra. }
  split.
  - assert (I : (0 <= / (a + b))%Qc). { apply Qclt_le_weak. destruct (Qclt_le_dec 0 (/ (a + b))) as [H|H]; auto. exfalso. assert (X : ((/ (a + b)) * (a + b) <= 0 * (a + b))%Qc) by (apply Qcmult_le_compat_r; auto; apply Qclt_le_weak; auto). rewrite Qcmult_inv_l in X by auto. rewrite Qcmult_0_l in X. exact (Qcle_not_lt 1 0 X eq_refl). }
    unfold Qcdiv. assert (X : (0 * (/ (a + b)) <= b * (/ (a + b)))%Qc) by (apply Qcmult_le_compat_r; auto). rewrite Qcmult_0_l in X. auto.
  - field. auto.
Qed.
Definition edge_range (q : Qc) : Prop := (0 <= q)%Qc /\ (q <= 1)%Qc /\ (sp_lowest par <= q)%Qc /\ (sp_lowest par <= 1 - q)%Qc.
Lemma edge_ok : forall u v, u < n -> v < n -> sw_edge T OP prob g par u v = Throw \/ exists q, sw_edge T OP prob g par u v = Ret q /\ edge_range q.
Proof.
  intros u v Hu Hv. unfold sw_edge. destruct (local_ok u v Hu Hv) as (factors & conn & EF & SF & IF & EC & SC & IC & FC). cbv zeta. rewrite EF. unfold conn_step in EC. rewrite EC. cbn [bind]. rewrite mapM_labels by auto. cbn [bind].
  destruct (sums_ok factors conn u v (seq 0 (size_of (labels_of g conn))) (0, 0)%Qc) as ([pe pu] & ES & P1 & P2); auto; try apply Qcle_refl.
  { intros k H. apply IF in H. destruct H; eapply adj_lt; eauto. }
  unfold sums in ES. cbv zeta in ES. cbn [fst snd] in P1, P2. 
  match goal with |- context [foldM ?f ?l ?s] => change (foldM f l s) with (sums factors conn (labels_of g conn) u v l s) end. unfold sums. cbv zeta. rewrite ES. cbn [bind].
  destruct (Qc_eq_dec (pe + pu) 0) as [Z|NZ]; auto. destruct (share pe pu P1 P2 NZ) as [R1 R2]. destruct (share pu pe P2 P1) as [R3 _]. { rewrite Qcplus_comm. auto. } rewrite (Qcplus_comm pu pe) in R3. rewrite R2 in *.
  unfold Qc_lt. destruct (Qclt_le_dec (1 - pu / (pe + pu)) (sp_lowest par)) as [H|H]; cbn [orb]; auto. destruct (Qclt_le_dec (pu / (pe + pu)) (sp_lowest par)) as [H'|H']; cbn [orb]; auto.
  right. eexists. split; [reflexivity|]. revert R1 R3 H H'. generalize (pu / (pe + pu))%Qc. intros q. intros. unfold edge_range. repeat split; auto. qlra.
Qed.
Lemma sums_sym : forall factors conn u v l p, u < n -> v < n -> Forall (fun w => w < n) conn -> sums factors conn (labels_of g conn) u v l p = sums factors conn (labels_of g conn) v u l p.
Proof.
  intros factors conn u v l p Hu Hv FC. unfold sums. apply foldM_ext_In. intros k q _. cbv zeta. pose proof (labeling_length _ g _ (scatter_labeling conn k FC)) as LL.
  destruct (evaluateFactors _ _ _ _ _); cbn [bind]; auto. rewrite !(rd_nth _ _ _ 0) by lia. cbn [bind]. rewrite (Nat.eqb_sym (nth v _ 0)). auto.
Qed.
Lemma edge_sym : forall u v, u < n -> v < n -> sw_edge T OP prob g par u v = sw_edge T OP prob g par v u.
Proof.
  intros u v Hu Hv. unfold sw_edge. destruct (local_ok u v Hu Hv) as (factors & conn & EF & SF & IF & EC & SC & IC & FC). destruct (local_ok v u Hv Hu) as (factors' & conn' & EF' & SF' & IF' & EC' & SC' & IC' & FC').
  assert (factors' = factors) as -> by (apply GmProofs.sorted_ext; auto; intros k; rewrite IF, IF'; tauto).
  assert (conn' = conn) as -> by (apply GmProofs.sorted_ext; auto; intros k; rewrite IC, IC'; firstorder).
  cbv zeta. rewrite EF, EF'. unfold conn_step in EC, EC'. rewrite EC, EC'. cbn [bind]. rewrite mapM_labels by auto. cbn [bind]. pose proof (sums_sym factors conn u v (seq 0 (size_of (labels_of g conn))) (0, 0)%Qc Hu Hv FC) as H. unfold sums in H. cbv zeta in H. rewrite H. auto.
Qed.

(** Loops that may throw *)
Lemma foldM_throw : forall (B : Type) (f : B -> nat -> outcome B) (P : nat -> B -> Prop) (X : Prop) m s,
  P 0 s -> (forall k t, k < m -> P k t -> (f t k = Throw /\ X) \/ exists t', f t k = Ret t' /\ P (S k) t') -> (foldM f (seq 0 m) s = Throw /\ X) \/ exists t, foldM f (seq 0 m) s = Ret t /\ P m t.
Proof.
  intros B f P X m s H0 HS. assert (G : forall k b t, b + k = m -> P b t -> (foldM f (seq b k) t = Throw /\ X) \/ exists t', foldM f (seq b k) t = Ret t' /\ P m t').
  { induction k as [|k IH]; intros b t E H; cbn [seq foldM]. { right. exists t. rewrite Nat.add_0_r in E. subst. auto. }
    destruct (HS b t) as [[E1 HX]|(t' & E1 & H1)]; auto; [lia| |]. { left. rewrite E1. auto. } rewrite E1. cbn [bind]. apply IH; auto. lia. }
  apply (G m 0); auto.
Qed.
Variable adj : list (list nat).
Hypothesis AO : adj_ok T g adj.
Definition at_adj (u j : nat) : nat := nth j (nth u adj []) 0.
Definition at_ep (ep : list (list Qc)) (u j : nat) : Qc := nth j (nth u ep []) 0%Qc.
Definition ep_shape (ep : list (list Qc)) : Prop := length ep = n /\ forall u, u < n -> length (nth u ep []) = length (nth u adj []).
Definition entry_ok (ep : list (list Qc)) (u j : nat) : Prop := nth u (v_labels g) 0 = nth (at_adj u j) (v_labels g) 0 -> sw_edge T OP prob g par u (at_adj u j) = Ret (at_ep ep u j).
Definition zero_ok (ep : list (list Qc)) : Prop := forall u j, u < n -> j < length (nth u adj []) -> nth u (v_labels g) 0 <> nth (at_adj u j) (v_labels g) 0 -> at_ep ep u j = 0%Qc.
Definition ep_ok (ep : list (list Qc)) : Prop := ep_shape ep /\ zero_ok ep /\ forall u j, u < n -> j < length (nth u adj []) -> entry_ok ep u j.
Lemma adj_len : length adj = n.
Proof. apply AO. Qed.
Lemma adj_lt_n : forall u j, u < n -> j < length (nth u adj []) -> at_adj u j < n /\ neighbours g u (at_adj u j) /\ at_adj u j <> u.
Proof.
  intros u j Hu Hj. destruct AO as [LA HA]. destruct (HA u (nth u adj [])) with (u := at_adj u j) as [H _]; [apply nth_error_nth'; lia|]. destruct H as [H D]. { apply nth_In. auto. } split; auto.
  destruct H as (k & fc & E & _ & I). destruct W as [WF _]. rewrite Forall_forall in WF. apply nth_error_In in E. destruct (WF _ E) as [_ F]. rewrite Forall_forall in F. auto.
Qed.
Definition failing : Prop := exists u v, u < n /\ v < n /\ neighbours g u v /\ u <> v /\ nth u (v_labels g) 0 = nth v (v_labels g) 0 /\ sw_edge T OP prob g par u v = Throw.
Lemma at_ep_upd : forall ep u j q u' j', ep_shape ep -> u < n -> j < length (nth u adj []) ->
  at_ep (upd ep u (upd (nth u ep []) j q)) u' j' = if (u' =? u) && (j' =? j) then q else at_ep ep u' j'.
Proof.
  intros ep u j q u' j' [L1 L2] Hu Hj. unfold at_ep. destruct (Nat.eqb_spec u' u) as [->|D]; cbn [andb].
  - rewrite nth_upd_eq by lia. destruct (Nat.eqb_spec j' j) as [->|D']; [rewrite nth_upd_eq by (rewrite L2; auto); auto|rewrite nth_upd_neq by auto; auto].
  - rewrite nth_upd_neq by auto. auto.
Qed.
Lemma shape_upd : forall ep u j q, ep_shape ep -> u < n -> ep_shape (upd ep u (upd (nth u ep []) j q)).
Proof.
  intros ep u j q [L1 L2] Hu. split. { rewrite length_upd. auto. } intros u' Hu'. destruct (Nat.eq_dec u' u) as [->|D]; [rewrite nth_upd_eq by lia; rewrite length_upd; auto|rewrite nth_upd_neq by auto; auto].
Qed.
Lemma edges_ok : forall ep, ep_shape ep -> zero_ok ep -> (sw_edges T OP prob g par adj ep = Throw /\ failing) \/ exists ep', sw_edges T OP prob g par adj ep = Ret ep' /\ ep_ok ep'.
Proof.
  intros ep SH Z. unfold sw_edges.
  match goal with |- context [foldM ?f (seq 0 n) ep] => destruct (foldM_throw _ f (fun u ep => ep_shape ep /\ zero_ok ep /\ forall u' j, u' < u -> j < length (nth u' adj []) -> entry_ok ep u' j) failing n ep) as [[E X]|(ep' & E & S' & Z' & D')] end.
  - split; auto. split; auto. intros; lia.
  - intros u ep1 Hu (S1 & Z1 & D1). cbv beta. rewrite (rd_nth _ adj u []) by (rewrite adj_len; auto). cbn [bind].
    match goal with |- context [foldM ?f (seq 0 ?m) ep1] => destruct (foldM_throw _ f (fun j ep => ep_shape ep /\ zero_ok ep /\ (forall u' j', u' < u -> j' < length (nth u' adj []) -> entry_ok ep u' j') /\ forall j', j' < j -> entry_ok ep u j') failing m ep1) as [[E X]|(ep2 & E & S2 & Z2 & D2 & D3)] end.
    + split; auto. split; auto. split; auto. intros; lia.
    + intros j ep2 Hj (S2 & Z2 & D2 & D3). cbv beta. rewrite (rd_nth _ _ j 0) by auto. cbn [bind]. fold (at_adj u j). destruct (adj_lt_n u j Hu Hj) as (Hv & NB & D). rewrite !(rd_nth _ _ _ 0) by auto. cbn [bind].
      destruct (Nat.eqb_spec (nth u (v_labels g) 0) (nth (at_adj u j) (v_labels g) 0)) as [EQ|NE].
      * destruct (edge_ok u (at_adj u j) Hu Hv) as [ET|(q & ER & _)].
        { left. rewrite ET. split; auto. exists u, (at_adj u j). auto 8. }
        right. rewrite ER. cbn [bind]. rewrite (rd_nth _ ep2 u []) by (destruct S2 as [-> _]; auto). cbn [bind]. rewrite wr_Ret by (destruct S2 as [_ ->]; auto). cbn [bind]. rewrite wr_Ret by (destruct S2 as [-> _]; auto).
        eexists. split; [reflexivity|]. split; [apply shape_upd; auto|].
        assert (AT : forall u' j', at_ep (upd ep2 u (upd (nth u ep2 []) j q)) u' j' = if (u' =? u) && (j' =? j) then q else at_ep ep2 u' j') by (intros; apply at_ep_upd; auto).
        split; [|split].
        { intros u' j' Hu' Hj' N. rewrite AT. destruct (Nat.eqb_spec u' u) as [->|]; cbn [andb]; auto. destruct (Nat.eqb_spec j' j) as [->|]; auto. contradiction. }
        { intros u' j' Hu' Hj' N. rewrite AT. replace (u' =? u) with false by (symmetry; apply Nat.eqb_neq; lia). apply D2; auto. }
        { intros j' Hj' N. rewrite AT. rewrite Nat.eqb_refl. cbn [andb]. destruct (Nat.eqb_spec j' j) as [->|]; auto. apply D3; auto. lia. }
      * right. exists ep2. split; auto. split; auto. split; auto. split; auto. intros j' Hj' N. destruct (Nat.eq_dec j' j) as [->|]; [contradiction|]. apply D3; auto. lia.
    + left. auto.
    + right. exists ep2. split; auto. split; auto. split; auto. intros u' j Hu' Hj. destruct (Nat.eq_dec u' u) as [->|]; auto. apply D2; auto. lia.
  - left. auto.
  - right. exists ep'. split; auto. split; auto.
Qed.
Lemma ep_not_failing : forall ep, ep_ok ep -> ~ failing.
Proof.
  intros ep (S & Z & E) (u & v & Hu & Hv & NB & D & EQ & ET). destruct AO as [LA HA]. destruct (HA u (nth u adj [])) with (u := v) as [_ H]; [apply nth_error_nth'; lia|].
  destruct (In_nth _ _ 0 (H (conj NB (not_eq_sym D)))) as (j & Hj & EJ). specialize (E u j Hu Hj). unfold entry_ok, at_adj in E. rewrite EJ in E. rewrite E in ET by auto. discriminate.
Qed.
Lemma zero_start : ep_shape (map (fun a => repeat 0%Qc (length a)) adj) /\ zero_ok (map (fun a => repeat 0%Qc (length a)) adj).
Proof.
  assert (N : forall u, u < n -> nth u (map (fun a : list nat => repeat 0%Qc (length a)) adj) [] = repeat 0%Qc (length (nth u adj []))).
  { intros u Hu. apply (MpState.nth_map_in _ _ (fun a : list nat => repeat 0%Qc (length a)) adj u [] []). rewrite adj_len. auto. }
  split; [split|].
  - rewrite map_length. apply adj_len.
  - intros u Hu. rewrite N, repeat_length; auto.
  - intros u j Hu Hj _. unfold at_ep. rewrite N by auto. rewrite nth_repeat. auto.
Qed.
(** What is known of the probabilities *)
Lemma ep_facts : forall ep, ep_ok ep -> forall u j, u < n -> j < length (nth u adj []) -> (0 <= at_ep ep u j)%Qc /\ (at_ep ep u j <= 1)%Qc /\
  (nth u (v_labels g) 0 <> nth (at_adj u j) (v_labels g) 0 -> at_ep ep u j = 0%Qc) /\
  (nth u (v_labels g) 0 = nth (at_adj u j) (v_labels g) 0 -> (sp_lowest par <= at_ep ep u j)%Qc /\ (sp_lowest par <= 1 - at_ep ep u j)%Qc) /\
  (forall j', j' < length (nth (at_adj u j) adj []) -> at_adj (at_adj u j) j' = u -> at_ep ep (at_adj u j) j' = at_ep ep u j).
Proof.
  intros ep (SH & Z & E) u j Hu Hj. destruct (adj_lt_n u j Hu Hj) as (Hv & NB & D). destruct (Nat.eq_dec (nth u (v_labels g) 0) (nth (at_adj u j) (v_labels g) 0)) as [EQ|NE].
  - pose proof (E u j Hu Hj EQ) as EE. destruct (edge_ok u (at_adj u j) Hu Hv) as [ET|(q & ER & R1 & R2 & R3 & R4)]; [congruence|]. assert (at_ep ep u j = q) as -> by congruence. split; auto. split; auto. split; [contradiction|]. split; auto.
    intros j' Hj' E'. pose proof (E (at_adj u j) j' Hv Hj') as EV. unfold entry_ok in EV. rewrite E' in EV. specialize (EV (eq_sym EQ)). rewrite edge_sym in EV by auto. congruence.
  - rewrite (Z u j) by auto. split; [apply Qcle_refl|]. split; [apply Qclt_le_weak; exact eq_refl|]. split; auto. split; [contradiction|]. intros j' Hj' E'. apply Z; auto. rewrite E'. auto.
Qed.
End Proofs.
