(** The message pass of DynamicProgramming: what the buffers hold after infer. *)
From Verif Require Import Base Values GmView GmViewSpec GmProofs GmViewProofs IcmProofs ShapeSpec ShapeProofs DpModel DpSpec DpOrder.
From Coq Require Import Relations.Relation_Operators Sorted.
#[local] Arguments nth_error : simpl never.

(** *** Two-dimensional buffers *)
Definition shaped {A : Type} (n : nat) (len : nat -> nat) (b : list (list (option A))) : Prop :=
  length b = n /\ forall v row, nth_error b v = Some row -> length row = len v.
Lemma wr2_ok : forall A n len (b : list (list (option A))) v l t, shaped n len b -> v < n -> l < len v ->
  exists b', wr2 b v l t = Ret b' /\ shaped n len b' /\ rd2 b' v l = Ret t /\
    (forall v' l', v' <> v \/ l' <> l -> rd2 b' v' l' = rd2 b v' l').
Proof.
  intros A n len b v l t [HL HR] Hv Hl. unfold wr2, rd2. destruct (nth_error b v) as [row|] eqn:E; [|apply nth_error_None in E; lia].
  rewrite (rd_Ret _ _ _ _ E). cbn [bind]. pose proof (HR _ _ E) as LR. rewrite wr_Ret by lia. cbn [bind]. rewrite wr_Ret by lia.
  eexists. split; [reflexivity|]. split; [|split].
  - split; [rewrite length_upd; auto|]. intros v' row'. destruct (Nat.eq_dec v' v) as [->|N].
    + rewrite nth_error_upd_eq by lia. intros X. injection X as <-. rewrite length_upd. auto.
    + rewrite nth_error_upd_neq by auto. apply HR.
  - unfold rd. rewrite nth_error_upd_eq by lia. cbn [bind]. rewrite nth_error_upd_eq by lia. auto.
  - intros v' l' D. unfold rd. destruct (Nat.eq_dec v' v) as [->|N].
    + rewrite nth_error_upd_eq by lia. rewrite E. cbn [bind]. rewrite nth_error_upd_neq; auto. destruct D; congruence.
    + rewrite nth_error_upd_neq by auto. auto.
Qed.

Section Infer.
Variable T : Type.
Variable OP : oper T.
Variable ACC : accum T.
Variable fin : T -> Prop.
Hypothesis OL : op_laws fin OP.
Hypothesis AL : acc_laws fin OP ACC.
Hypothesis AS : acc_select fin ACC.
Variable g : gmv T.
Hypothesis W : wf_gmv g.
Hypothesis FG : fin_gmv fin g.
Variable order nodes : list nat.
Variable st_0 : list (list (option nat)).
Hypothesis OD : ordered T g order nodes st_0.
Let n := length (v_labels g).
Notation o := (ord_of order).
Definition lab (v : nat) : nat := nth v (v_labels g) 0.
Notation L := lab.

Lemma L_pos : forall v, v < n -> 0 < L v.
Proof. intros v Hv. destruct W as [_ P]. unfold positive in P. rewrite Forall_forall in P. apply P, nth_In. auto. Qed.

Definition vl (val : list (list (option T))) (v l : nat) : T := match rd2 val v l with Ret t => t | _ => o_neutral OP end.
Definition sl (st : list (list (option nat))) (v j : nat) : nat := match rd2 st v j with Ret s => s | _ => 0 end.

(** Factor [k] joins [v] to its child. *)
Definition child_of (v k : nat) : option nat :=
  match nth_error (v_factors g) k with
  | Some ([a; b], _) => if (a =? v) && (o v <? o b) then Some b else if (b =? v) && (o v <? o a) then Some a else None
  | _ => None
  end.
Definition is_child (v k : nat) : bool := match child_of v k with Some _ => true | None => false end.
(** Values of factors of [v] at its label [l], for order one and (with label [s] of the child) order two. *)
Definition uv (v k l : nat) : T :=
  match nth_error (v_factors g) k with Some ([a], f) => if a =? v then f [l] else o_neutral OP | _ => o_neutral OP end.
Definition pv (v k l s : nat) : T :=
  match nth_error (v_factors g) k with Some ([a; b], f) => if a =? v then f [l; s] else f [s; l] | _ => o_neutral OP end.

Fixpoint before (k : nat) (l : list nat) : list nat := match l with [] => [] | h :: t => if h =? k then [] else h :: before k t end.
Definition kidx (v k : nat) : nat := length (filter (is_child v) (before k (v_adj T g v))).
Definition slot (v k l : nat) : nat := kidx v k * L v + l.

Definition contr (val : list (list (option T))) (st : list (list (option nat))) (v k l : nat) : T :=
  match child_of v k with
  | Some c => o_op OP (pv v k l (sl st v (slot v k l))) (vl val c (sl st v (slot v k l)))
  | None => uv v k l
  end.
Definition best_at (val : list (list (option T))) (st : list (list (option nat))) (v k c l : nat) : Prop :=
  rd2 st v (slot v k l) = Ret (sl st v (slot v k l)) /\ sl st v (slot v k l) < L c /\
  forall s, s < L c -> a_bop ACC (o_op OP (pv v k l s) (vl val c s)) (contr val st v k l) = false.
Definition node_ok (val : list (list (option T))) (st : list (list (option nat))) (v : nat) : Prop :=
  (forall l, l < L v -> rd2 val v l = Ret (vl val v l) /\ fin (vl val v l) /\ vl val v l = big T OP (v_adj T g v) (fun k => contr val st v k l)) /\
  forall k c l, child_of v k = Some c -> l < L v -> best_at val st v k c l.

(** *** Children *)
Lemma child_edge : forall v k c, child_of v k = Some c <-> edge g k v c /\ o v < o c.
Proof.
  intros v k c. unfold child_of, edge. destruct (nth_error (v_factors g) k) as [[vis f]|] eqn:E.
  2:{ split; [discriminate|intros [(fc & X & _) _]; discriminate]. }
  assert (ND : forall a b, vis = [a; b] -> a <> b).
  { intros a b ->. destruct (wf_nth _ _ _ _ W E) as [HS _]. cbn in HS. inversion HS as [|? ? _ HF]; subst. apply Forall_cons_iff in HF. destruct HF. lia. }
  destruct vis as [|a [|b [|? ?]]].
  - split; [discriminate|]. intros [(fc & X & [Y|Y]) _]; injection X as <-; discriminate.
  - split; [discriminate|]. intros [(fc & X & [Y|Y]) _]; injection X as <-; discriminate.
  - specialize (ND a b eq_refl). split.
    + destruct (Nat.eqb_spec a v) as [->|N]; cbn [andb].
      * destruct (Nat.ltb_spec (o v) (o b)) as [LT|LT]; [intros X; injection X as <-; split; [exists ([v; b], f); auto|auto]|].
        destruct (Nat.eqb_spec b v) as [->|N]; [congruence|]. discriminate.
      * destruct (Nat.eqb_spec b v) as [->|N2]; cbn [andb]; [|discriminate]. destruct (Nat.ltb_spec (o v) (o a)) as [LT|LT]; [|discriminate].
        intros X. injection X as <-. split; [exists ([a; v], f); auto|auto].
    + intros [(fc & X & Y) LT]. injection X as <-. cbn [fst] in Y. destruct Y as [Y|Y]; injection Y as <- <-.
      * rewrite Nat.eqb_refl. rewrite (proj2 (Nat.ltb_lt _ _) LT). auto.
      * destruct (Nat.eqb_spec a b); [congruence|]. cbn [andb]. rewrite Nat.eqb_refl. rewrite (proj2 (Nat.ltb_lt _ _) LT). auto.
  - split; [discriminate|]. intros [(fc & X & [Y|Y]) _]; injection X as <-; discriminate.
Qed.
Lemma child_facts : forall v k c, child_of v k = Some c -> In k (v_adj T g v) /\ v < n /\ c < n /\ v <> c /\ o v < o c.
Proof.
  intros v k c H. apply child_edge in H. destruct H as [He L]. destruct (edge_bound T g W _ _ _ He) as (A & B & C). split; [eapply edge_adj; eauto|auto].
Qed.
Lemma parent_one : forall c v1 k1 v2 k2, child_of v1 k1 = Some c -> child_of v2 k2 = Some c -> k1 = k2 /\ v1 = v2.
Proof.
  intros c v1 k1 v2 k2 H1 H2. apply child_edge in H1, H2. destruct H1 as [E1 L1], H2 as [E2 L2].
  assert (k1 = k2) by (eapply (od_parent _ _ _ _ _ OD c k1 v1 k2 v2); eauto; apply edge_sym; auto). subst k2. split; auto.
  destruct E1 as (f1 & F1 & G1). destruct E2 as (f2 & F2 & G2). rewrite F1 in F2. injection F2 as <-.
  destruct (edge_bound T g W k1 v1 c) as (_ & _ & N); [exists f1; auto|]. destruct G1 as [G1|G1], G2 as [G2|G2]; rewrite G1 in G2; injection G2; congruence.
Qed.
Lemma v_adj_NoDup : forall v, NoDup (v_adj T g v).
Proof. intros. unfold v_adj. apply NoDup_filter, seq_NoDup. Qed.
Lemma before_app : forall k l1 l2, ~ In k l1 -> before k (l1 ++ k :: l2) = l1.
Proof.
  intros k l1. induction l1 as [|h l1 IH]; intros l2 H; cbn [app before]; [rewrite Nat.eqb_refl; auto|].
  destruct (Nat.eqb_spec h k) as [->|N]; [exfalso; apply H; left; auto|]. rewrite IH; auto. intros X. apply H. right. auto.
Qed.
Lemma kidx_at : forall v k l1 l2, v_adj T g v = l1 ++ k :: l2 -> kidx v k = length (filter (is_child v) l1).
Proof.
  intros v k l1 l2 E. unfold kidx. rewrite E, before_app; auto. pose proof (v_adj_NoDup v) as X. rewrite E in X. apply NoDup_remove_2 in X. intros Y. apply X. apply in_app_iff. auto.
Qed.
Definition nkids (v : nat) : nat := length (filter (is_child v) (v_adj T g v)).
Lemma kidx_lt : forall v k c, child_of v k = Some c -> kidx v k < nkids v.
Proof.
  intros v k c H. destruct (child_facts _ _ _ H) as [I _]. apply in_split in I. destruct I as (l1 & l2 & E). rewrite (kidx_at _ _ _ _ E). unfold nkids. rewrite E, filter_app, app_length.
  cbn [filter]. replace (is_child v k) with true by (unfold is_child; rewrite H; auto). cbn. lia.
Qed.
Lemma slot_lt : forall v k c l, child_of v k = Some c -> l < L v -> slot v k l < L v * nkids v.
Proof. intros v k c l H Hl. pose proof (kidx_lt _ _ _ H). unfold slot. nia. Qed.

(** *** Finite values *)
Lemma zeros_ok : labeling g (repeat 0 n).
Proof.
  destruct W as [_ P]. unfold labeling, in_shape. unfold n. clear - P. induction (v_labels g) as [|a l IH]; cbn; constructor; unfold positive in P; apply Forall_cons_iff in P; destruct P; auto.
Qed.
Lemma labeling_upd : forall x v l, labeling g x -> l < L v -> labeling g (upd x v l).
Proof. intros x v l Hx Hl. unfold labeling, in_shape in *. apply MovemakerProofs.Forall2_upd; auto. Qed.
Lemma pv_x : forall v k c x, child_of v k = Some c -> pv v k (nth v x 0) (nth c x 0) = val T OP g k x.
Proof.
  intros v k c x H. apply child_edge in H. destruct H as [(fc & E & H) _]. unfold pv, val. rewrite E. destruct fc as [vis f]. cbn [fst snd] in *. destruct H as [-> | ->].
  - rewrite Nat.eqb_refl. auto.
  - destruct (Nat.eqb_spec c v) as [->|N]; auto.
Qed.
Lemma pv_fin : forall v k c l s, child_of v k = Some c -> l < L v -> s < L c -> fin (pv v k l s).
Proof.
  intros v k c l s H Hl Hs. destruct (child_facts _ _ _ H) as (_ & Bv & Bc & N & _).
  set (x := upd (upd (repeat 0 n) v l) c s).
  assert (Lx : labeling g x) by (apply labeling_upd; auto; apply labeling_upd; auto; apply zeros_ok).
  replace l with (nth v x 0). 2:{ unfold x. rewrite nth_upd_neq by auto. apply nth_upd_eq. rewrite repeat_length. auto. }
  replace s with (nth c x 0). 2:{ unfold x. apply nth_upd_eq. rewrite length_upd, repeat_length. auto. }
  rewrite (pv_x v k c x H). apply (val_fin T OP fin OL); auto.
Qed.
Lemma uv_fin : forall v k l, v < n -> l < L v -> fin (uv v k l).
Proof.
  intros v k l Hv Hl. unfold uv. destruct (nth_error (v_factors g) k) as [[vis f]|] eqn:E; [|apply (ol_neutral _ _ OL)].
  destruct vis as [|a [|? ?]]; try apply (ol_neutral _ _ OL). destruct (Nat.eqb_spec a v) as [->|N]; [|apply (ol_neutral _ _ OL)].
  assert (Lx : labeling g (upd (repeat 0 n) v l)) by (apply labeling_upd; auto; apply zeros_ok).
  pose proof (val_fin T OP fin OL g k _ W FG Lx) as X. unfold val in X. rewrite E in X. cbn [at_vars map fst snd] in X.
  rewrite nth_upd_eq in X by (rewrite repeat_length; auto). auto.
Qed.

(** *** The loops *)
Definition same_off {A : Type} (node : nat) (b b' : list (list (option A))) : Prop := forall v l, v <> node -> rd2 b' v l = rd2 b v l.

Lemma set_neutral_ok : forall node val, shaped n L val -> node < n ->
  exists val', set_neutral T OP g node val = Ret val' /\ shaped n L val' /\ same_off node val val' /\ (forall l, l < L node -> rd2 val' node l = Ret (o_neutral OP)).
Proof.
  intros node val S Hn. unfold set_neutral. fold (lab node).
  assert (G : forall j, j <= L node -> exists val', foldM (fun val n => wr2 val node n (o_neutral OP)) (seq 0 j) val = Ret val' /\ shaped n L val' /\ same_off node val val' /\ (forall l, l < j -> rd2 val' node l = Ret (o_neutral OP))).
  { induction j as [|j IH]; intros Hj; [exists val; split; auto; split; auto; split; [intros v l _; auto|lia]|].
    destruct IH as (val1 & E1 & S1 & O1 & R1); [lia|]. rewrite seq_S, foldM_app, E1. cbn [bind foldM]. rewrite Nat.add_0_l.
    destruct (wr2_ok T n L val1 node j (o_neutral OP) S1 Hn Hj) as (val2 & E2 & S2 & R2 & O2). rewrite E2. cbn [bind]. exists val2. split; auto. split; auto. split.
    - intros v l Hv. rewrite O2 by auto. apply O1. auto.
    - intros l Hl. destruct (Nat.eq_dec l j) as [->|N]; auto. rewrite O2 by auto. apply R1. lia. }
  apply (G (L node) (le_n _)).
Qed.
Lemma vl_of : forall val v l t, rd2 val v l = Ret t -> vl val v l = t.
Proof. intros. unfold vl. rewrite H. auto. Qed.
Lemma sl_of : forall st v l t, rd2 st v l = Ret t -> sl st v l = t.
Proof. intros. unfold sl. rewrite H. auto. Qed.
Lemma vl_same : forall val val' v l, rd2 val' v l = rd2 val v l -> vl val' v l = vl val v l.
Proof. intros. unfold vl. rewrite H. auto. Qed.
Lemma sl_same : forall st st' v l, rd2 st' v l = rd2 st v l -> sl st' v l = sl st v l.
Proof. intros. unfold sl. rewrite H. auto. Qed.

Lemma unary_ok : forall node f val, shaped n L val -> node < n -> (forall l, l < L node -> rd2 val node l = Ret (vl val node l)) ->
  exists val', unary T OP g node f val = Ret val' /\ shaped n L val' /\ same_off node val val' /\ (forall l, l < L node -> rd2 val' node l = Ret (o_op OP (f [l]) (vl val node l))).
Proof.
  intros node f val S Hn HR. unfold unary. fold (lab node).
  assert (G : forall j, j <= L node -> exists val', foldM (fun val n => v <- rd2 val node n ;; wr2 val node n (o_op OP (f [n]) v)) (seq 0 j) val = Ret val' /\ shaped n L val' /\ same_off node val val' /\
     (forall l, l < j -> rd2 val' node l = Ret (o_op OP (f [l]) (vl val node l))) /\ (forall l, j <= l -> rd2 val' node l = rd2 val node l)).
  { induction j as [|j IH]; intros Hj; [exists val; split; auto; split; auto; split; [intros v l _; auto|split; auto; lia]|].
    destruct IH as (val1 & E1 & S1 & O1 & R1 & U1); [lia|]. rewrite seq_S, foldM_app, E1. cbn [bind foldM]. rewrite Nat.add_0_l.
    rewrite U1, HR by lia. cbn [bind].
    destruct (wr2_ok T n L val1 node j (o_op OP (f [j]) (vl val node j)) S1 Hn Hj) as (val2 & E2 & S2 & R2 & O2). rewrite E2. cbn [bind]. exists val2. split; auto. split; auto. split; [|split].
    - intros v l Hv. rewrite O2 by auto. apply O1. auto.
    - intros l Hl. destruct (Nat.eq_dec l j) as [->|N]; auto. rewrite O2 by auto. apply R1. lia.
    - intros l Hl. rewrite O2 by lia. apply U1. lia. }
  destruct (G (L node) (le_n _)) as (val' & X1 & X2 & X3 & X4 & _). exists val'. auto.
Qed.

Lemma best_loop : forall f m, 0 < m -> (forall c, c < m -> fin (f c)) -> forall s0,
  exists s, fold_left (fun (p : T * option nat) c => if a_bop ACC (f c) (fst p) then (f c, Some c) else p) (seq 0 m) (a_neutral ACC, s0) = (f s, Some s) /\ s < m /\
    forall s', s' < m -> a_bop ACC (f s') (f s) = false.
Proof.
  intros f m. induction m as [|m IH]; intros Hm Hf s0; [lia|]. rewrite seq_S, fold_left_app. cbn [fold_left]. rewrite Nat.add_0_l. destruct m as [|m].
  - cbn. destruct (al_neutral _ _ AS (f 0)) as [X _]; [apply Hf; lia|]. rewrite X. exists 0. split; auto. split; auto. intros s' Hs. replace s' with 0 by lia. apply (al_irrefl _ _ _ AL). apply Hf. lia.
  - destruct (IH ltac:(lia) ltac:(intros; apply Hf; lia) s0) as (s & E & Hs & HB). rewrite E. cbn [fst]. destruct (a_bop ACC (f (S m)) (f s)) eqn:B.
    + exists (S m). split; auto. split; auto. intros s' Hs'. destruct (Nat.eq_dec s' (S m)) as [->|N]; [apply (al_irrefl _ _ _ AL); apply Hf; lia|].
      destruct (a_bop ACC (f s') (f (S m))) eqn:B2; auto. assert (X : a_bop ACC (f s') (f s) = true) by (apply (al_trans _ _ _ AL _ (f (S m))); auto; apply Hf; lia). rewrite HB in X by lia. discriminate.
    + exists s. split; auto. split; [lia|]. intros s' Hs'. destruct (Nat.eq_dec s' (S m)) as [->|N]; auto. apply HB. lia.
Qed.
Lemma best_child_ok : forall node2 val f s0, node2 < n -> (forall c, c < L node2 -> rd2 val node2 c = Ret (vl val node2 c)) -> (forall c, c < L node2 -> fin (o_op OP (f c) (vl val node2 c))) ->
  exists s, best_child T OP ACC g node2 val f s0 = Ret (o_op OP (f s) (vl val node2 s), Some s) /\ s < L node2 /\
    forall s', s' < L node2 -> a_bop ACC (o_op OP (f s') (vl val node2 s')) (o_op OP (f s) (vl val node2 s)) = false.
Proof.
  intros node2 val f s0 Hn HR HF. destruct (best_loop (fun c => o_op OP (f c) (vl val node2 c)) (L node2) (L_pos _ Hn) HF s0) as (s & E & Hs & HB). exists s. split; [|auto].
  rewrite <- E. unfold best_child. fold (lab node2). clear E. generalize (a_neutral ACC, s0).
  assert (G : forall l p, (forall c, In c l -> c < L node2) -> foldM (fun (p : T * option nat) c => w <- rd2 val node2 c ;; let v2 := o_op OP (f c) w in Ret (if a_bop ACC v2 (fst p) then (v2, Some c) else p)) l p =
     Ret (fold_left (fun (p : T * option nat) c => if a_bop ACC (o_op OP (f c) (vl val node2 c)) (fst p) then (o_op OP (f c) (vl val node2 c), Some c) else p) l p)).
  { induction l as [|c l IH]; intros p Hl; auto. cbn [foldM fold_left]. rewrite HR by (apply Hl; left; auto). cbn [bind]. apply IH. intros. apply Hl. right. auto. }
  intros p. apply G. intros c Hc. apply in_seq in Hc. lia.
Qed.

Lemma message_ok : forall node node2 cc f val st lst, shaped n L val -> shaped n lst st -> node < n -> node2 < n -> node <> node2 ->
  (forall l, l < L node -> rd2 val node l = Ret (vl val node l)) -> (forall c, c < L node2 -> rd2 val node2 c = Ret (vl val node2 c)) ->
  (forall l c, l < L node -> c < L node2 -> fin (o_op OP (f l c) (vl val node2 c))) -> cc * L node + L node <= lst node ->
  exists val' st', message T OP ACC g node node2 cc f (val, st) = Ret (val', st') /\ shaped n L val' /\ shaped n lst st' /\ same_off node val val' /\ same_off node st st' /\
    (forall j, j < cc * L node -> rd2 st' node j = rd2 st node j) /\
    forall l, l < L node -> exists s, rd2 st' node (cc * L node + l) = Ret s /\ s < L node2 /\ rd2 val' node l = Ret (o_op OP (o_op OP (f l s) (vl val node2 s)) (vl val node l)) /\
      forall s', s' < L node2 -> a_bop ACC (o_op OP (f l s') (vl val node2 s')) (o_op OP (f l s) (vl val node2 s)) = false.
Proof.
  intros node node2 cc f val st lst SV SS Hn Hn2 ND HR HR2 HF HB. unfold message. fold (lab node).
  match goal with |- exists _ _, bind (foldM ?step _ _) _ = _ /\ _ => set (stp := step) end.
  assert (G : forall j, j <= L node -> exists val' st' sj, foldM stp (seq 0 j) (val, st, None) = Ret (val', st', sj) /\ shaped n L val' /\ shaped n lst st' /\ same_off node val val' /\ same_off node st st' /\
    (forall i, i < cc * L node -> rd2 st' node i = rd2 st node i) /\ (forall l, j <= l -> rd2 val' node l = rd2 val node l) /\
    forall l, l < j -> exists s, rd2 st' node (cc * L node + l) = Ret s /\ s < L node2 /\ rd2 val' node l = Ret (o_op OP (o_op OP (f l s) (vl val node2 s)) (vl val node l)) /\
      forall s', s' < L node2 -> a_bop ACC (o_op OP (f l s') (vl val node2 s')) (o_op OP (f l s) (vl val node2 s)) = false).
  { induction j as [|j IH]; intros Hj.
    { exists val, st, None. split; auto. split; auto. split; auto. split; [intros v l _; auto|]. split; [intros v l _; auto|]. split; auto. split; auto. intros l Hl. lia. }
    destruct IH as (v1 & s1 & q1 & E1 & SV1 & SS1 & O1 & P1 & K1 & U1 & B1); [lia|]. rewrite seq_S, foldM_app, E1. cbn [bind foldM]. rewrite Nat.add_0_l. unfold stp at 1.
    assert (X2 : forall c, rd2 v1 node2 c = rd2 val node2 c) by (intros; apply O1; auto).
    destruct (best_child_ok node2 v1 (f j) q1 Hn2) as (s & Es & Hs & HBst).
    { intros c Hc. rewrite (vl_same val v1) by auto. rewrite X2. auto. }
    { intros c Hc. rewrite (vl_same val v1) by auto. auto. }
    rewrite Es. cbn [bind get].
    destruct (wr2_ok nat n lst s1 node (cc * L node + j) s SS1 Hn) as (s2 & E2 & SS2 & R2 & P2); [lia|]. fold (lab node). rewrite E2. cbn [bind].
    rewrite U1, HR by lia. cbn [bind].
    destruct (wr2_ok T n L v1 node j (o_op OP (o_op OP (f j s) (vl v1 node2 s)) (vl val node j)) SV1 Hn Hj) as (v2 & E3 & SV2 & R3 & O2). rewrite E3. cbn [bind].
    exists v2, s2, (Some s). split; auto. split; auto. split; auto. split; [intros v l Hv; rewrite O2 by auto; apply O1; auto|]. split; [intros v l Hv; rewrite P2 by auto; apply P1; auto|].
    split; [intros i Hi; rewrite P2 by lia; apply K1; auto|]. split; [intros l Hl; rewrite O2 by lia; apply U1; lia|].
    intros l Hl. destruct (Nat.eq_dec l j) as [->|N].
    - exists s. split; auto. split; auto. split; [rewrite R3; rewrite (vl_same val v1) by auto; auto|]. intros s' Hs'. specialize (HBst s' Hs'). rewrite !(vl_same val v1) in HBst by auto. auto.
    - destruct (B1 l ltac:(lia)) as (s' & Z1 & Z2 & Z3 & Z4). exists s'. split; [rewrite P2 by lia; auto|]. split; auto. split; [rewrite O2 by lia; auto|auto]. }
  destruct (G (L node) (le_n _)) as (v' & s' & q & E & A1 & A2 & A3 & A4 & A5 & _ & A6). rewrite E. cbn [bind fst]. exists v', s'. repeat (split; auto).
Qed.

(** *** One variable *)
(** Factor [k] has at most two variables. *)
Definition low (k : nat) : Prop := forall fc, nth_error (v_factors g) k = Some fc -> length (fst fc) <= 2.
Notation lst := (fun v => L v * nkids v).
Definition partial_ok (val0 : list (list (option T))) (st0 : list (list (option nat))) (node : nat) (ks : list nat) (p : list (list (option T)) * list (list (option nat)) * nat) : Prop :=
  let '(val, st, cc) := p in
  shaped n L val /\ shaped n lst st /\ same_off node val0 val /\ same_off node st0 st /\ cc = length (filter (is_child node) ks) /\
  (forall l, l < L node -> rd2 val node l = Ret (big T OP ks (fun k => contr val st node k l))) /\
  (forall k c l, In k ks -> child_of node k = Some c -> l < L node -> best_at val st node k c l).

Lemma contr_fin : forall val st v k l, v < n -> l < L v ->
  (forall c, child_of v k = Some c -> best_at val st v k c l /\ (forall s, s < L c -> fin (vl val c s))) -> fin (contr val st v k l).
Proof.
  intros val st v k l Hv Hl H. unfold contr. destruct (child_of v k) as [c|] eqn:E; [|apply uv_fin; auto].
  destruct (H c eq_refl) as [(_ & B & _) F]. apply (ol_op _ _ OL); [eapply pv_fin; eauto|apply F; auto].
Qed.
Lemma contr_same : forall val st val' st' v k l, (forall c s, child_of v k = Some c -> rd2 val' c s = rd2 val c s) -> rd2 st' v (slot v k l) = rd2 st v (slot v k l) ->
  contr val' st' v k l = contr val st v k l.
Proof.
  intros val st val' st' v k l H1 H2. unfold contr. destruct (child_of v k) as [c|] eqn:E; auto. rewrite (sl_same st st') by auto. rewrite (vl_same val val'); auto.
Qed.
Lemma best_at_same : forall val st val' st' v k c l, child_of v k = Some c -> (forall s, rd2 val' c s = rd2 val c s) -> rd2 st' v (slot v k l) = rd2 st v (slot v k l) ->
  best_at val st v k c l -> best_at val' st' v k c l.
Proof.
  intros val st val' st' v k c l HC H1 H2 (A & B & C). unfold best_at. rewrite (sl_same st st') by auto. rewrite H2. split; auto. split; auto.
  intros s Hs. rewrite (contr_same val st val' st'); auto; [|intros c' s' X; rewrite HC in X; injection X as <-; auto]. rewrite (vl_same val val') by auto. auto.
Qed.

Lemma infer_factor_ok : forall val0 st0 node k ks1 ks2 p, node < n -> low k -> v_adj T g node = ks1 ++ k :: ks2 ->
  (forall c s, (exists j, child_of node j = Some c) -> s < L c -> rd2 val0 c s = Ret (vl val0 c s) /\ fin (vl val0 c s)) ->
  partial_ok val0 st0 node ks1 p -> exists p', infer_factor T OP ACC g order node p k = Ret p' /\ partial_ok val0 st0 node (ks1 ++ [k]) p'.
Proof.
  intros val0 st0 node k ks1 ks2 [[val st] cc] Hn SO EA HCH (SV & SS & OV & OS & Ecc & RV & HB).
  assert (Hk : In k (v_adj T g node)) by (rewrite EA; apply in_app_iff; right; left; auto).
  assert (NK : ~ In k ks1). { pose proof (v_adj_NoDup node) as X. rewrite EA in X. apply NoDup_remove_2 in X. intros Y. apply X. apply in_app_iff. auto. }
  assert (HCV : forall c s, (exists j, child_of node j = Some c) -> s < L c -> rd2 val c s = Ret (vl val c s) /\ fin (vl val c s)).
  { intros c s [j Hj] Hs. destruct (child_facts _ _ _ Hj) as (_ & _ & _ & N & _). assert (X : rd2 val c s = rd2 val0 c s) by (apply OV; auto). rewrite (vl_same val0 val) by auto. rewrite X. apply HCH; eauto. }
  assert (BF : forall l, l < L node -> forall j, In j ks1 -> fin (contr val st node j l)).
  { intros l Hl j Hj. apply contr_fin; auto. intros c Hc. split; [apply HB; auto|]. intros s Hs. apply HCV; eauto. }
  apply v_adj_spec in Hk. destruct Hk as (fc & Ek & Hin). unfold infer_factor. rewrite (rd_Ret _ _ _ _ Ek). cbn [bind].
  assert (BADD : forall F l, l < L node -> (forall j, In j ks1 -> F j = contr val st node j l) -> fin (F k) -> big T OP (ks1 ++ [k]) F = o_op OP (F k) (big T OP ks1 (fun j => contr val st node j l))).
  { intros F l Hl HF Fk. rewrite (big_app T OP fin OL).
    2:{ intros j Hj. apply in_app_iff in Hj. destruct Hj as [Hj|[<-|[]]]; auto. rewrite HF by auto. apply BF; auto. }
    rewrite (big_ext T OP ks1 F (fun j => contr val st node j l)) by auto. change (big T OP [k] F) with (o_op OP (F k) (o_neutral OP)). rewrite (op_unit_r T OP fin OL) by auto.
    apply (ol_comm _ _ OL); auto. apply (big_fin T OP fin OL). apply BF. auto. }
  assert (NOOP : child_of node k = None -> (forall l, uv node k l = o_neutral OP) -> partial_ok val0 st0 node (ks1 ++ [k]) (val, st, cc)).
  { intros HN HU. split; auto. split; auto. split; auto. split; auto. split; [rewrite filter_app, app_length; cbn [filter]; unfold is_child at 2; rewrite HN; cbn; lia|]. split.
    - intros l Hl. rewrite RV by auto. f_equal. rewrite (BADD (fun j => contr val st node j l) l); auto.
      + unfold contr at 2. rewrite HN, HU, (ol_unit _ _ OL); auto. apply (big_fin T OP fin OL). apply BF. auto.
      + unfold contr. rewrite HN, HU. apply (ol_neutral _ _ OL).
    - intros j c l Hj Hc. apply in_app_iff in Hj. destruct Hj as [Hj|[<-|[]]]; [apply HB; auto|congruence]. }
  assert (NU : (forall a, fst fc <> [a]) -> forall l, uv node k l = o_neutral OP).
  { intros X l. unfold uv. rewrite Ek. destruct fc as [[|a [|? ?]] f]; auto. exfalso. apply (X a). auto. }
  specialize (SO fc Ek).
  destruct (fst fc) as [|v0 [|v1 [|? ?]]] eqn:Ef; [destruct Hin| | |cbn in SO; lia].
  - (* order one *)
    destruct Hin as [->|[]]. destruct (unary_ok node (snd fc) val SV Hn) as (val' & E & SV' & OV' & RV').
    { intros l Hl. unfold vl. rewrite RV by auto. auto. }
    cbn [fst snd]. rewrite E. cbn [bind]. eexists. split; [reflexivity|].
    assert (HN : child_of node k = None). { unfold child_of. rewrite Ek. destruct fc as [vis f]. cbn in Ef. rewrite Ef. auto. }
    assert (HU : forall l, uv node k l = snd fc [l]). { intros l. unfold uv. rewrite Ek. destruct fc as [vis f]. cbn in Ef |- *. rewrite Ef, Nat.eqb_refl. auto. }
    assert (SAME : forall j l, contr val' st node j l = contr val st node j l).
    { intros j l. apply contr_same; auto. intros c s Hc. destruct (child_facts _ _ _ Hc) as (_ & _ & _ & N & _). apply OV'. auto. }
    split; auto. split; auto. split; [intros v l Hv; rewrite OV' by auto; apply OV; auto|]. split; auto.
    split; [rewrite filter_app, app_length; cbn [filter]; unfold is_child at 2; rewrite HN; cbn; lia|]. split.
    + intros l Hl. rewrite RV' by auto. f_equal. rewrite (BADD (fun j => contr val' st node j l) l); auto.
      * unfold contr at 1. rewrite HN, HU. f_equal. unfold vl. rewrite RV by auto. auto.
      * unfold contr. rewrite HN. apply uv_fin; auto.
    + intros j c l Hj Hc Hl. apply in_app_iff in Hj. destruct Hj as [Hj|[<-|[]]]; [|congruence]. apply (best_at_same val st); auto.
      intros s. destruct (child_facts _ _ _ Hc) as (_ & _ & _ & N & _). apply OV'. auto.
  - (* order two *)
    assert (HE : edge g k v0 v1) by (exists fc; auto). destruct (edge_bound T g W _ _ _ HE) as (B0 & B1 & ND). fold n in B0, B1.
    rewrite !(rd_nth _ order _ 0) by (rewrite (od_len _ _ _ _ _ OD); auto). cbn [bind]. fold (o node) (o v0) (o v1).
    assert (HU : forall l, uv node k l = o_neutral OP) by (apply NU; intros a X; discriminate).
    assert (MSG : forall c f, child_of node k = Some c -> (forall l s, f l s = pv node k l s) ->
       exists p', (b <- message T OP ACC g node c cc f (val, st) ;; Ret (b, S cc)) = Ret p' /\ partial_ok val0 st0 node (ks1 ++ [k]) p').
    { intros c f HC HF. destruct (child_facts _ _ _ HC) as (_ & _ & Bc & N & _).
      assert (CK : kidx node k = cc) by (rewrite (kidx_at _ _ _ _ EA); auto).
      destruct (message_ok node c cc f val st lst SV SS Hn Bc N) as (val' & st' & E & SV' & SS' & OV' & OS' & KS & RM).
      { intros l Hl. unfold vl. rewrite RV by auto. auto. }
      { intros s Hs. apply HCV; eauto. }
      { intros l s Hl Hs. rewrite HF. apply (ol_op _ _ OL); [eapply pv_fin; eauto|apply HCV; eauto]. }
      { pose proof (kidx_lt _ _ _ HC). rewrite CK in *. nia. }
      rewrite E. cbn [bind]. eexists. split; [reflexivity|].
      assert (KV : forall c', (exists j, child_of node j = Some c') -> forall s, rd2 val' c' s = rd2 val c' s).
      { intros c' [j Hj] s. destruct (child_facts _ _ _ Hj) as (_ & _ & _ & N' & _). apply OV'. auto. }
      assert (KSLOT : forall j l c', In j ks1 -> child_of node j = Some c' -> l < L node -> rd2 st' node (slot node j l) = rd2 st node (slot node j l)).
      { intros j l c' Hj Hc' Hl. apply KS. unfold slot. assert (kidx node j < cc); [|nia]. rewrite Ecc.
        pose proof Hj as Hj2. apply in_split in Hj2. destruct Hj2 as (a & b & Eab). rewrite (kidx_at node j a (b ++ k :: ks2)). 2:{ rewrite EA, Eab, <- app_assoc. auto. }
        rewrite Eab, filter_app, app_length. cbn [filter]. replace (is_child node j) with true by (unfold is_child; rewrite Hc'; auto). cbn. lia. }
      assert (SAME : forall j l, In j ks1 -> l < L node -> contr val' st' node j l = contr val st node j l).
      { intros j l Hj Hl. unfold contr. destruct (child_of node j) as [c'|] eqn:Hc; auto.
        rewrite (sl_same st st') by (eapply KSLOT; eauto). rewrite (vl_same val val'); [auto|]. apply KV; eauto. }
      assert (CONTR : forall l, l < L node -> exists s, rd2 st' node (slot node k l) = Ret s /\ s < L c /\ contr val' st' node k l = o_op OP (f l s) (vl val c s) /\
           rd2 val' node l = Ret (o_op OP (contr val' st' node k l) (vl val node l)) /\ forall s', s' < L c -> a_bop ACC (o_op OP (f l s') (vl val c s')) (contr val' st' node k l) = false).
      { intros l Hl. destruct (RM l Hl) as (s & Z1 & Z2 & Z3 & Z4). exists s. unfold slot. rewrite CK. split; auto. split; auto.
        assert (CE : contr val' st' node k l = o_op OP (f l s) (vl val c s)).
        { unfold contr. rewrite HC. unfold slot. rewrite CK, (sl_of _ _ _ _ Z1), HF. rewrite (vl_same val val'); [auto|]. apply KV; eauto. }
        rewrite CE. auto. }
      split; auto. split; auto. split; [intros v l Hv; rewrite OV' by auto; apply OV; auto|]. split; [intros v l Hv; rewrite OS' by auto; apply OS; auto|].
      split; [rewrite filter_app, app_length; cbn [filter]; unfold is_child at 2; rewrite HC; cbn; lia|]. split.
      - intros l Hl. destruct (CONTR l Hl) as (s & Z1 & Z2 & Z3 & Z4 & _). rewrite Z4. f_equal. rewrite (BADD (fun j => contr val' st' node j l) l); auto.
        + f_equal. unfold vl. rewrite RV by auto. auto.
        + rewrite Z3, HF. apply (ol_op _ _ OL); [eapply pv_fin; eauto|apply HCV; eauto].
      - intros j c' l Hj Hc Hl. apply in_app_iff in Hj. destruct Hj as [Hj|[<-|[]]].
        + apply (best_at_same val st); [exact Hc| | |apply HB; auto]; [apply KV; eauto|eapply KSLOT; eauto].
        + rewrite HC in Hc. injection Hc as <-. destruct (CONTR l Hl) as (s & Z1 & Z2 & Z3 & Z4 & Z5). unfold best_at. rewrite (sl_of _ _ _ _ Z1). split; auto. split; auto.
          intros s' Hs'. specialize (Z5 s' Hs'). rewrite HF in Z5. rewrite (vl_same val val'); [auto|]. apply KV; eauto. }
    assert (CO : child_of node k = if (v0 =? node) && (o node <? o v1) then Some v1 else if (v1 =? node) && (o node <? o v0) then Some v0 else None).
    { unfold child_of. rewrite Ek. destruct fc as [vis f]. cbn in Ef. rewrite Ef. auto. }
    assert (PV : forall l s, pv node k l s = if v0 =? node then snd fc [l; s] else snd fc [s; l]).
    { intros l s. unfold pv. rewrite Ek. destruct fc as [vis f]. cbn in Ef. rewrite Ef. auto. }
    cbn [fst snd]. destruct ((v0 =? node) && (o node <? o v1)) eqn:C0.
    + pose proof C0 as C0'. apply andb_prop in C0'. destruct C0' as [Q0 _]. rewrite Q0 in PV. apply Nat.eqb_eq in Q0.
      destruct (MSG v1 (fun l c => snd fc [l; c]) CO) as (p' & E' & P'); [intros; rewrite PV; auto|]. rewrite E'. cbn [bind].
      destruct (Nat.eqb_spec v1 node) as [X|_]; [congruence|]. cbn [andb]. exists p'. auto.
    + cbn [bind]. destruct ((v1 =? node) && (o node <? o v0)) eqn:C1.
      * pose proof C1 as C1'. apply andb_prop in C1'. destruct C1' as [Q1 _]. apply Nat.eqb_eq in Q1.
        destruct (Nat.eqb_spec v0 node) as [X|_]; [congruence|]. apply (MSG v0 (fun l c => snd fc [c; l]) CO). intros. rewrite PV. auto.
      * eexists. split; [reflexivity|]. apply NOOP; auto.
Qed.

Lemma infer_node_ok : forall node val st, node < n -> Forall low (v_adj T g node) -> shaped n L val -> shaped n lst st ->
  (forall c, c < n -> o node < o c -> node_ok val st c) ->
  exists val' st', infer_node T OP ACC g order (val, st) node = Ret (val', st') /\ shaped n L val' /\ shaped n lst st' /\ same_off node val val' /\ same_off node st st' /\ node_ok val' st' node.
Proof.
  intros node val st Hn SO SV SS HC. unfold infer_node. cbn [fst snd]. destruct (set_neutral_ok node val SV Hn) as (v0 & E0 & SV0 & OV0 & RV0). rewrite E0. cbn [bind].
  assert (HCH : forall c s, (exists j, child_of node j = Some c) -> s < L c -> rd2 v0 c s = Ret (vl v0 c s) /\ fin (vl v0 c s)).
  { intros c s [j Hj] Hs. destruct (child_facts _ _ _ Hj) as (_ & _ & Bc & N & LT). assert (X : rd2 v0 c s = rd2 val c s) by (apply OV0; auto). rewrite (vl_same val v0) by auto. rewrite X.
    destruct (HC c Bc LT) as [H _]. destruct (H s Hs) as (A & B & _). auto. }
  assert (G : forall ks1 ks2 p, v_adj T g node = ks1 ++ ks2 -> Forall low ks2 -> partial_ok v0 st node ks1 p -> exists p', foldM (infer_factor T OP ACC g order node) ks2 p = Ret p' /\ partial_ok v0 st node (ks1 ++ ks2) p').
  { intros ks1 ks2. revert ks1. induction ks2 as [|k ks2 IH]; intros ks1 p EA HL HP; [exists p; rewrite app_nil_r; auto|]. apply Forall_cons_iff in HL. destruct HL as [HK HL]. cbn [foldM].
    destruct (infer_factor_ok v0 st node k ks1 ks2 p Hn HK EA HCH HP) as (p1 & E1 & P1). rewrite E1. cbn [bind].
    destruct (IH (ks1 ++ [k]) p1) as (p2 & E2 & P2); [rewrite <- app_assoc; auto|auto|auto|]. exists p2. split; auto. rewrite <- app_assoc in P2. auto. }
  destruct (G [] (v_adj T g node) (v0, st, 0) eq_refl SO) as ([[v' s'] cc] & E & P).
  { split; auto. split; auto. split; [intros v l _; auto|]. split; [intros v l _; auto|]. split; auto. split; [|intros k c l []]. intros l Hl. rewrite RV0 by auto. auto. }
  rewrite E. cbn [bind fst]. cbn [app] in P. destruct P as (SV' & SS' & OV' & OS' & _ & RV' & HB). exists v', s'. split; auto. split; auto. split; auto.
  split; [intros v l Hv; rewrite OV' by auto; apply OV0; auto|]. split; auto. split.
  - intros l Hl. unfold vl. rewrite RV' by auto. split; auto. split; auto. apply (big_fin T OP fin OL). intros k Hk. apply contr_fin; auto.
    intros c Hc. split; [apply HB; auto|]. intros s Hs. destruct (child_facts _ _ _ Hc) as (_ & _ & _ & N & _). rewrite (vl_same v0 v') by (apply OV'; auto). apply HCH; eauto.
  - intros k c l Hc Hl. apply HB; auto. eapply child_facts; eauto.
Qed.

Lemma node_ok_same : forall node val st val' st' v, same_off node val val' -> same_off node st st' -> v <> node -> (forall k, child_of v k <> Some node) ->
  node_ok val st v -> node_ok val' st' v.
Proof.
  intros node val st val' st' v OV OS N NC [H1 H2].
  assert (CS : forall k l, contr val' st' v k l = contr val st v k l).
  { intros k l. apply contr_same; [|apply OS; auto]. intros c s Hc. apply OV. intros ->. eapply NC; eauto. }
  split.
  - intros l Hl. rewrite (vl_same val val') by (apply OV; auto). rewrite (OV v l N). destruct (H1 l Hl) as (A & B & C). split; auto. split; auto. rewrite C. apply big_ext. intros. rewrite CS. auto.
  - intros k c l Hc Hl. apply (best_at_same val st); auto. intros s. apply OV. intros ->. eapply NC; eauto.
Qed.

Lemma infer_node_throws : forall node val st k fc, node < n -> In k (v_adj T g node) -> nth_error (v_factors g) k = Some fc -> 2 < length (fst fc) -> shaped n L val -> shaped n lst st ->
  (forall c, c < n -> o node < o c -> node_ok val st c) -> infer_node T OP ACC g order (val, st) node = Throw.
Proof.
  intros node val st k fc Hn Hk Ek Hlen SV SS HC. unfold infer_node. cbn [fst snd]. destruct (set_neutral_ok node val SV Hn) as (v0 & E0 & SV0 & OV0 & RV0). rewrite E0. cbn [bind].
  assert (HCH : forall c s, (exists j, child_of node j = Some c) -> s < L c -> rd2 v0 c s = Ret (vl v0 c s) /\ fin (vl v0 c s)).
  { intros c s [j Hj] Hs. destruct (child_facts _ _ _ Hj) as (_ & _ & Bc & N & LT). assert (X : rd2 v0 c s = rd2 val c s) by (apply OV0; auto). rewrite (vl_same val v0) by auto. rewrite X.
    destruct (HC c Bc LT) as [H _]. destruct (H s Hs) as (A & B & _). auto. }
  assert (G : forall ks2 ks1 p, v_adj T g node = ks1 ++ ks2 -> In k ks2 -> partial_ok v0 st node ks1 p -> foldM (infer_factor T OP ACC g order node) ks2 p = Throw).
  { induction ks2 as [|j ks2 IH]; intros ks1 p EA HI HP; [destruct HI|]. cbn [foldM].
    assert (DEC : low j \/ exists fj, nth_error (v_factors g) j = Some fj /\ 2 < length (fst fj)).
    { unfold low. destruct (nth_error (v_factors g) j) as [fj|]; [|left; discriminate]. destruct (le_lt_dec (length (fst fj)) 2); [left; intros ? X; injection X as <-; auto|right; eauto]. }
    destruct DEC as [HJ|(fj & Ej & Hj)].
    - destruct (infer_factor_ok v0 st node j ks1 ks2 p Hn HJ EA HCH HP) as (p1 & E1 & P1). rewrite E1. cbn [bind]. apply (IH (ks1 ++ [j])); auto; [rewrite <- app_assoc; auto|].
      destruct HI as [->|HI]; auto. specialize (HJ _ Ek). lia.
    - unfold infer_factor at 1. rewrite (rd_Ret _ _ _ _ Ej). cbn [bind]. destruct (fst fj) as [|? [|? [|? ?]]]; cbn in Hj; try lia. auto. }
  rewrite (G (v_adj T g node) [] (v0, st, 0) eq_refl Hk); auto.
  split; auto. split; auto. split; [intros v l _; auto|]. split; [intros v l _; auto|]. split; auto. split; [|intros j c l []]. intros l Hl. rewrite RV0 by auto. auto.
Qed.

(** *** infer *)
Lemma infer_prefix : forall d, d_order d = order -> d_nodes d = nodes -> shaped n L (d_val d) -> shaped n lst (d_st d) -> forall j, j <= n ->
  (forall v, v < n -> n - j <= o v -> Forall low (v_adj T g v)) ->
  exists val st, foldM (fun b i => node <- rd nodes (n - i) ;; infer_node T OP ACC g order b node) (seq 1 j) (d_val d, d_st d) = Ret (val, st) /\ shaped n L val /\ shaped n lst st /\
     forall v, v < n -> n - j <= o v -> node_ok val st v.
Proof.
  intros d EO EN SV SS. induction j as [|j IH]; intros Hj HL.
  - exists (d_val d), (d_st d). split; auto. split; auto. split; auto. intros v Hv Ho. destruct (od_nth _ _ _ _ _ OD v Hv) as [X _]. fold n in X. lia.
  - destruct IH as (val & st & E & A1 & A2 & A3); [lia|intros v Hv Hvo; apply HL; auto; lia|]. rewrite seq_S, foldM_app, E. cbn [bind foldM].
    destruct (od_node _ _ _ _ _ OD (n - (1 + j))) as (v & Ev & Bv & Ov); [fold n; lia|]. rewrite (rd_Ret _ _ _ _ Ev). cbn [bind].
    destruct (infer_node_ok v val st Bv) as (val' & st' & E' & B1 & B2 & B3 & B4 & B5); auto. { apply HL; auto. lia. } { intros c Hc LT. apply A3; auto. lia. }
    rewrite E'. cbn [bind]. exists val', st'. split; auto. split; auto. split; auto. intros u Hu Ho. destruct (Nat.eq_dec u v) as [->|N]; auto.
    assert (o u <> o v). { intros X. destruct (od_nth _ _ _ _ _ OD u Hu) as [_ Y]. destruct (od_nth _ _ _ _ _ OD v Bv) as [_ Z]. rewrite X in Y. congruence. }
    apply (node_ok_same v val st); auto; [|apply A3; auto; lia]. intros k Hk. apply child_facts in Hk. lia.
Qed.
Theorem infer_ok : second_order g -> forall d, d_order d = order -> d_nodes d = nodes -> shaped n L (d_val d) -> shaped n lst (d_st d) ->
  exists d', dp_infer T OP ACC g d = Ret d' /\ d_order d' = order /\ d_nodes d' = nodes /\ d_started d' = true /\ shaped n L (d_val d') /\ shaped n lst (d_st d') /\
    forall v, v < n -> node_ok (d_val d') (d_st d') v.
Proof.
  intros SO d EO EN SV SS. unfold dp_infer. fold n. rewrite EO, EN.
  destruct (infer_prefix d EO EN SV SS n (le_n _)) as (val & st & E & A1 & A2 & A3).
  { intros v _ _. apply Forall_forall. intros k _ fc Ek. unfold second_order in SO. rewrite Forall_forall in SO. apply SO. eapply nth_error_In; eauto. }
  rewrite E. cbn [bind fst snd]. eexists. split; [reflexivity|]. cbn. do 5 (split; [auto|]). intros v Hv. apply A3; auto. lia.
Qed.
(** A factor of more than two variables is rejected. *)
Theorem infer_throws : ~ second_order g -> forall d, d_order d = order -> d_nodes d = nodes -> shaped n L (d_val d) -> shaped n lst (d_st d) -> dp_infer T OP ACC g d = Throw.
Proof.
  intros NS d EO EN SV SS. unfold dp_infer. fold n. rewrite EO, EN.
  assert (DEC : forall v, v < n -> Forall low (v_adj T g v) \/ exists k fc, In k (v_adj T g v) /\ nth_error (v_factors g) k = Some fc /\ 2 < length (fst fc)).
  { intros v Hv. destruct (Forall_Exists_dec low) with (l := v_adj T g v) as [F|X].
    - intros k. unfold low. destruct (nth_error (v_factors g) k) as [fc|]; [|left; discriminate]. destruct (le_lt_dec (length (fst fc)) 2); [left; intros ? Y; injection Y as <-; auto|right]. intros Y. specialize (Y fc eq_refl). lia.
    - left. auto.
    - right. apply Exists_exists in X. destruct X as (k & Hk & N). unfold low in N. destruct (nth_error (v_factors g) k) as [fc|] eqn:E; [|exfalso; apply N; discriminate]. exists k, fc. split; auto. split; auto.
      destruct (le_lt_dec (length (fst fc)) 2); auto. exfalso. apply N. intros ? Y. injection Y as <-. auto. }
  assert (G : forall j, j <= n -> (forall v, v < n -> n - j <= o v -> Forall low (v_adj T g v)) \/ foldM (fun b i => node <- rd nodes (n - i) ;; infer_node T OP ACC g order b node) (seq 1 j) (d_val d, d_st d) = Throw).
  { induction j as [|j IH]; intros Hj; [left; intros v Hv Ho; destruct (od_nth _ _ _ _ _ OD v Hv) as [X _]; fold n in X; lia|].
    destruct IH as [HL|E]; [lia| |right; rewrite seq_S, foldM_app, E; auto].
    destruct (od_node _ _ _ _ _ OD (n - (1 + j))) as (v & Ev & Bv & Ov); [fold n; lia|]. destruct (DEC v Bv) as [F|(k & fc & Hk & Ek & Hlen)].
    - left. intros u Hu Hou. destruct (Nat.eq_dec (o u) (o v)) as [EQ|NE]; [|apply HL; auto; lia].
      destruct (od_nth _ _ _ _ _ OD u Hu) as [_ Y]. destruct (od_nth _ _ _ _ _ OD v Bv) as [_ Z]. rewrite EQ in Y. replace u with v by congruence. auto.
    - right. destruct (infer_prefix d EO EN SV SS j ltac:(lia) HL) as (val & st & E & A1 & A2 & A3). rewrite seq_S, foldM_app, E. cbn [bind foldM]. rewrite (rd_Ret _ _ _ _ Ev). cbn [bind].
      rewrite (infer_node_throws v val st k fc); auto. intros c Hc LT. apply A3; auto. lia. }
  destruct (G n (le_n _)) as [HL|E]; [|rewrite E; auto]. exfalso. apply NS. apply Forall_forall. intros fc Hfc. apply In_nth_error in Hfc. destruct Hfc as [k Ek].
  destruct (le_lt_dec (length (fst fc)) 2) as [LE|LT]; auto. destruct (fst fc) as [|v l] eqn:Ef; [cbn in LT; lia|].
  destruct (wf_nth _ _ _ _ W Ek) as [_ HB]. rewrite Ef in HB. apply Forall_cons_iff in HB. destruct HB as [HB _].
  specialize (HL v HB ltac:(lia)). rewrite Forall_forall in HL. specialize (HL k). rewrite <- Ef. apply HL; auto. apply v_adj_spec. exists fc. split; auto. rewrite Ef. left. auto.
Qed.

(** The buffers of the constructor have the right sizes. *)
Lemma st0_shaped : shaped n lst st_0.
Proof.
  split; [apply (od_st _ _ _ _ _ OD)|]. intros v row Hr. assert (Hv : v < n) by (pose proof (od_st _ _ _ _ _ OD) as X; fold n in X; rewrite <- X; apply nth_error_Some; congruence).
  apply (od_row _ _ _ _ _ OD v row (filter (is_child v) (v_adj T g v))); auto.
  - apply NoDup_filter, v_adj_NoDup.
  - intros k. rewrite filter_In. unfold is_child. split.
    + intros [Hk H]. destruct (child_of v k) as [c|] eqn:E; [|discriminate]. exists c. apply child_edge. auto.
    + intros (c & H). apply child_edge in H. rewrite H. split; auto. eapply child_facts; eauto.
Qed.
Lemma val0_shaped : forall A, shaped n L (map (fun i => repeat (@None A) (nth i (v_labels g) 0)) (seq 0 n)).
Proof.
  intros A. split; [rewrite map_length, seq_length; auto|]. intros v row Hr. rewrite nth_error_map in Hr. destruct (nth_error (seq 0 n) v) as [i|] eqn:E; [|discriminate]. injection Hr as <-.
  assert (v < n) by (rewrite <- (seq_length n 0); apply nth_error_Some; congruence). rewrite (nth_error_nth' _ 0), seq_nth in E by (rewrite ?seq_length; auto). injection E as <-. rewrite repeat_length. auto.
Qed.
End Infer.
