(** Dynamic programming: why the labeling found by backtracking is optimal, and that arg finds it. *)
From Verif Require Import Base Values GmView GmViewSpec GmProofs GmViewProofs IcmProofs ShapeSpec ShapeProofs DpModel DpSpec DpOrder DpInfer.
From Coq Require Import Relations.Relation_Operators Sorted Permutation.
#[local] Arguments nth_error : simpl never.

Lemma NoDup_flat_map : forall A B (f : A -> list B) l, NoDup l -> (forall a, In a l -> NoDup (f a)) ->
  (forall a a' b, In a l -> In a' l -> In b (f a) -> In b (f a') -> a = a') -> NoDup (flat_map f l).
Proof.
  intros A B f l ND HN HD. induction l as [|a l IH]; cbn [flat_map]; [constructor|]. inversion ND as [|? ? NI ND']; subst. apply NoDup_app_intro.
  - apply HN. left. auto.
  - apply IH; auto; intros; [apply HN; right; auto|]. eapply HD; eauto; right; auto.
  - intros b H1 H2. apply in_flat_map in H2. destruct H2 as (a' & Ha' & Hb). apply NI. rewrite (HD a a' b); auto; [left; auto|right; auto].
Qed.

Lemma Forall2_nth_intro : forall (a b : list nat), length a = length b -> (forall i, i < length a -> nth i a 0 < nth i b 0) -> Forall2 lt a b.
Proof.
  induction a as [|x a IH]; intros [|y b] HL H; try discriminate; constructor; [apply (H 0); cbn; lia|]. apply IH; [cbn in HL; lia|]. intros i Hi. apply (H (S i)). cbn. lia.
Qed.
Lemma Forall2_nth_lt : forall (a b : list nat) i, Forall2 lt a b -> i < length b -> nth i a 0 < nth i b 0.
Proof. intros a b i H. revert i. induction H as [|x y a b E H IH]; intros [|i] Hi; cbn in *; try lia. apply IH. lia. Qed.

Section Opt.
Variable T : Type.
Variable OP : oper T.
Variable ACC : accum T.
Variable fin : T -> Prop.
Hypothesis OL : op_laws fin OP.
Hypothesis AL : acc_laws fin OP ACC.
Hypothesis AS : acc_select fin ACC.
Variable g : gmv T.
Hypothesis W : wf_gmv g.
Hypothesis FG : fin_gmv fin g.
Hypothesis SO : second_order g.
Variable order nodes : list nat.
Variable st_0 : list (list (option nat)).
Hypothesis OD : ordered T g order nodes st_0.
Let n := length (v_labels g).
Notation o := (ord_of order).
Notation L := (lab T g).
Notation big := (big T OP).
Notation childf := (child_of T g order).
Notation K := (v_adj T g).

(** *** Sums *)
Lemma big_op : forall l f h, (forall k, In k l -> fin (f k)) -> (forall k, In k l -> fin (h k)) -> big l (fun k => o_op OP (f k) (h k)) = o_op OP (big l f) (big l h).
Proof.
  induction l as [|k l IH]; intros f h Hf Hh; [cbn; rewrite (ol_unit _ _ OL); auto; apply (ol_neutral _ _ OL)|]. rewrite !big_cons.
  rewrite IH; [|intros; apply Hf; right; auto|intros; apply Hh; right; auto].
  assert (fin (f k)) by (apply Hf; left; auto). assert (fin (h k)) by (apply Hh; left; auto).
  assert (fin (big l f)) by (apply (big_fin T OP fin OL); intros; apply Hf; right; auto). assert (fin (big l h)) by (apply (big_fin T OP fin OL); intros; apply Hh; right; auto).
  rewrite <- !(ol_assoc _ _ OL); auto; try (apply (ol_op _ _ OL); auto). f_equal. rewrite !(ol_assoc _ _ OL); auto. f_equal. apply (ol_comm _ _ OL); auto.
Qed.
Lemma big_mono : forall l f h, (forall k, In k l -> fin (f k)) -> (forall k, In k l -> fin (h k)) -> (forall k, In k l -> a_bop ACC (f k) (h k) = false) -> a_bop ACC (big l f) (big l h) = false.
Proof.
  induction l as [|k l IH]; intros f h Hf Hh H; [cbn; apply (al_irrefl _ _ _ AL), (ol_neutral _ _ OL)|]. rewrite !big_cons.
  assert (fin (f k)) by (apply Hf; left; auto). assert (fin (h k)) by (apply Hh; left; auto).
  assert (fin (big l f)) by (apply (big_fin T OP fin OL); intros; apply Hf; right; auto). assert (fin (big l h)) by (apply (big_fin T OP fin OL); intros; apply Hh; right; auto).
  apply (al_negtrans _ _ _ AL _ (o_op OP (f k) (big l h))); try (apply (ol_op _ _ OL); auto).
  - rewrite (al_mono _ _ _ AL) by auto. apply IH; [intros; apply Hf; right; auto|intros; apply Hh; right; auto|intros; apply H; right; auto].
  - rewrite (ol_comm _ _ OL (f k)), (ol_comm _ _ OL (h k)) by auto. rewrite (al_mono _ _ _ AL) by auto. apply H. left. auto.
Qed.
Lemma big_flat_map : forall l (h : nat -> list nat) f, (forall v k, In v l -> In k (h v) -> fin (f k)) -> big (flat_map h l) f = big l (fun v => big (h v) f).
Proof.
  induction l as [|v l IH]; intros h f H; auto. cbn [flat_map]. rewrite big_cons. rewrite (big_app T OP fin OL).
  - f_equal. apply IH. intros. eapply H; eauto. right. auto.
  - intros k Hk. apply in_app_iff in Hk. destruct Hk as [Hk|Hk]; [eapply H; eauto; left; auto|]. apply in_flat_map in Hk. destruct Hk as (v' & Hv' & Hk). eapply H; eauto. right. auto.
Qed.

(** *** Children and own factors of a variable *)
Definition kids (v : nat) : list nat := flat_map (fun k => match childf v k with Some c => [c] | None => [] end) (K v).
Definition allkids : list nat := flat_map kids (seq 0 n).
Lemma in_kids : forall v c, In c (kids v) <-> exists k, childf v k = Some c.
Proof.
  intros v c. unfold kids. rewrite in_flat_map. split.
  - intros (k & _ & H). exists k. destruct (childf v k) as [a|]; [destruct H as [->|[]]; auto|destruct H].
  - intros [k H]. exists k. split; [eapply child_facts; eauto|]. rewrite H. left. auto.
Qed.
Lemma in_allkids : forall c, In c allkids <-> exists v k, childf v k = Some c.
Proof.
  intros c. unfold allkids. rewrite in_flat_map. split.
  - intros (v & _ & H). exists v. apply in_kids. auto.
  - intros (v & k & H). exists v. split; [|apply in_kids; eauto]. apply in_seq. destruct (child_facts T g W order _ _ _ H) as (_ & B & _). fold n in B. lia.
Qed.
Lemma allkids_NoDup : NoDup allkids.
Proof.
  apply NoDup_flat_map; [apply seq_NoDup| |].
  - intros v _. apply NoDup_flat_map; [apply v_adj_NoDup| |].
    + intros k _. destruct (childf v k); repeat constructor. intros [].
    + intros k k' c _ _ H H'. destruct (childf v k) as [a|] eqn:E; [destruct H as [->|[]]|destruct H]. destruct (childf v k') as [b|] eqn:E'; [destruct H' as [->|[]]|destruct H'].
      apply (parent_one T g W order nodes st_0 OD _ _ _ _ _ E E').
  - intros v v' c _ _ H H'. apply in_kids in H, H'. destruct H as [k H], H' as [k' H']. apply (parent_one T g W order nodes st_0 OD _ _ _ _ _ H H').
Qed.
Lemma allkids_bound : forall c, In c allkids -> c < n.
Proof. intros c H. apply in_allkids in H. destruct H as (v & k & H). destruct (child_facts T g W order _ _ _ H) as (_ & _ & B & _). auto. Qed.
Definition rts : list nat := filter (fun v => negb (mem v allkids)) (seq 0 n).

Definition unary_of (v k : nat) : bool := match nth_error (v_factors g) k with Some ([a], _) => a =? v | _ => false end.
Definition owned (v k : nat) : bool := is_child T g order v k || unary_of v k.
Definition allown : list nat := flat_map (fun v => filter (owned v) (K v)) (seq 0 n).
Lemma K_bound : forall v k, In k (K v) -> k < length (v_factors g).
Proof. intros v k H. apply v_adj_spec in H. destruct H as (fc & E & _). apply nth_error_Some. congruence. Qed.
Lemma owned_one : forall v v' k, owned v k = true -> owned v' k = true -> v = v'.
Proof.
  intros v v' k H H'. unfold owned, unary_of in *. destruct (nth_error (v_factors g) k) as [[vis f]|] eqn:E.
  2:{ unfold is_child, child_of in H. rewrite E in H. discriminate. }
  apply orb_true_iff in H, H'. destruct H as [H|H].
  - unfold is_child in H. destruct (childf v k) as [c|] eqn:C; [|discriminate]. pose proof C as C0. unfold child_of in C0. rewrite E in C0.
    destruct vis as [|a [|b [|? ?]]]; try discriminate. clear C0. destruct H' as [H'|H']; [|discriminate]. unfold is_child in H'. destruct (childf v' k) as [c'|] eqn:C'; [|discriminate].
    apply (child_edge T g W order) in C, C'. destruct C as [(fc & E1 & D1) L1], C' as [(fc' & E2 & D2) L2]. rewrite E in E1, E2. injection E1 as <-. injection E2 as <-. cbn [fst] in *.
    destruct D1 as [D1|D1], D2 as [D2|D2]; injection D1 as <- <-; injection D2 as <- <-; auto; lia.
  - destruct vis as [|a [|? ?]]; try discriminate. apply Nat.eqb_eq in H. subst. destruct H' as [H'|H']; [|apply Nat.eqb_eq in H'; auto].
    unfold is_child, child_of in H'. rewrite E in H'. discriminate.
Qed.
Lemma allown_NoDup : NoDup allown.
Proof.
  apply NoDup_flat_map; [apply seq_NoDup| |].
  - intros v _. apply NoDup_filter, v_adj_NoDup.
  - intros v v' k _ _ H H'. apply filter_In in H, H'. eapply owned_one; [apply H|apply H'].
Qed.
Lemma allown_bound : forall k, In k allown -> k < length (v_factors g).
Proof. intros k H. apply in_flat_map in H. destruct H as (v & _ & H). apply filter_In in H. eapply K_bound. apply H. Qed.
Lemma allown_all : forall k fc, nth_error (v_factors g) k = Some fc -> fst fc <> [] -> In k allown.
Proof.
  intros k fc E NE. pose proof SO as S. unfold second_order in S. rewrite Forall_forall in S. specialize (S fc (nth_error_In _ _ E)).
  apply in_flat_map. destruct fc as [vis f]. cbn [fst] in *. destruct (wf_nth _ _ _ _ W E) as [_ HB]. cbn [fst] in HB. fold n in HB. destruct vis as [|a [|b [|? ?]]]; [congruence| | |cbn in S; lia].
  - apply Forall_cons_iff in HB. exists a. split; [apply in_seq; lia|]. apply filter_In. split; [apply v_adj_spec; exists ([a], f); cbn; auto|].
    unfold owned, unary_of. rewrite E, Nat.eqb_refl. apply orb_true_r.
  - apply Forall_cons_iff in HB. destruct HB as [Ha HB]. apply Forall_cons_iff in HB. destruct HB as [Hb _].
    assert (HE : edge g k a b) by (exists ([a; b], f); auto). destruct (edge_bound T g W _ _ _ HE) as (_ & _ & N).
    assert (o a <> o b). { intros X. destruct (od_nth _ _ _ _ _ OD a Ha) as [_ Y]. destruct (od_nth _ _ _ _ _ OD b Hb) as [_ Z]. rewrite X in Y. congruence. }
    destruct (Nat.lt_total (o a) (o b)) as [LT|[?|LT]]; [|lia|].
    + exists a. assert (C : childf a k = Some b) by (apply (child_edge T g W order); auto). split; [apply in_seq; lia|]. apply filter_In. split; [eapply child_facts; eauto|]. unfold owned, is_child. rewrite C. auto.
    + exists b. assert (C : childf b k = Some a) by (apply (child_edge T g W order); split; auto; apply edge_sym; auto). split; [apply in_seq; lia|]. apply filter_In. split; [eapply child_facts; eauto|]. unfold owned, is_child. rewrite C. auto.
Qed.

(** *** The value of a labeling and the root buffers *)
Definition own (x : list nat) (v k : nat) : T := if owned v k then val T OP g k x else o_neutral OP.
Definition osum (x : list nat) : T := big (seq 0 n) (fun v => big (K v) (own x v)).
Lemma own_fin : forall x v k, labeling g x -> fin (own x v k).
Proof. intros x v k Hx. unfold own. destruct (owned v k); [apply (val_fin T OP fin OL); auto|apply (ol_neutral _ _ OL)]. Qed.
Lemma osum_fin : forall x, labeling g x -> fin (osum x).
Proof. intros x Hx. apply (big_fin T OP fin OL). intros. apply (big_fin T OP fin OL). intros. apply own_fin. auto. Qed.
Lemma total_osum : forall x, labeling g x -> total OP g x = o_op OP (osum x) (big (filter (fun k => negb (mem k allown)) (seq 0 (length (v_factors g)))) (fun k => val T OP g k x)).
Proof.
  intros x Hx. rewrite (total_split T OP fin OL g allown W FG allown_NoDup allown_bound x Hx). f_equal. unfold allown. rewrite big_flat_map by (intros; apply (val_fin T OP fin OL); auto).
  apply big_ext. intros v _. generalize (K v). intros l. induction l as [|k l IH]; auto. rewrite big_cons. cbn [filter]. unfold own at 1. destruct (owned v k); [rewrite big_cons; f_equal; auto|].
  rewrite (ol_unit _ _ OL); auto. apply (big_fin T OP fin OL). intros. apply own_fin. auto.
Qed.
Lemma total_cmp : forall x y, labeling g x -> labeling g y -> a_bop ACC (total OP g y) (total OP g x) = a_bop ACC (osum y) (osum x).
Proof.
  intros x y Hx Hy. rewrite !total_osum by auto.
  replace (big (filter (fun k => negb (mem k allown)) (seq 0 (length (v_factors g)))) (fun k => val T OP g k y)) with (big (filter (fun k => negb (mem k allown)) (seq 0 (length (v_factors g)))) (fun k => val T OP g k x)).
  - assert (X : fin (big (filter (fun k => negb (mem k allown)) (seq 0 (length (v_factors g)))) (fun k => val T OP g k x))) by (apply (big_fin T OP fin OL); intros; apply (val_fin T OP fin OL); auto).
    rewrite (ol_comm _ _ OL (osum y)), (ol_comm _ _ OL (osum x)) by (auto using osum_fin). apply (al_mono _ _ _ AL); auto using osum_fin.
  - apply big_ext. intros k Hk. apply filter_In in Hk. destruct Hk as [_ Hk]. unfold val. destruct (nth_error (v_factors g) k) as [fc|] eqn:E; auto. f_equal. destruct (fst fc) as [|a l] eqn:F; auto.
    exfalso. assert (In k allown) by (eapply allown_all; eauto; congruence). apply mem_In in H. rewrite H in Hk. discriminate.
Qed.

Variable valb : list (list (option T)).
Variable st : list (list (option nat)).
Hypothesis NOK : forall v, v < n -> node_ok T OP ACC fin g order valb st v.
Notation vl := (vl T OP valb).
Notation sl := (sl st).
Notation slot := (slot T g order).

Lemma vl_fin : forall v l, v < n -> l < L v -> fin (vl v l).
Proof. intros v l Hv Hl. destruct (NOK v Hv) as [H _]. apply H. auto. Qed.
Lemma lx : forall x v, labeling g x -> v < n -> nth v x 0 < L v.
Proof. intros x v Hx Hv. unfold labeling, in_shape in Hx. unfold lab. apply Forall2_nth_lt; auto. Qed.

Definition rsum (x : list nat) : T := big rts (fun r => vl r (nth r x 0)).
Lemma rts_bound : forall r, In r rts -> r < n.
Proof. intros r H. apply filter_In in H. destruct H as [H _]. apply in_seq in H. lia. Qed.
Lemma rsum_fin : forall x, labeling g x -> fin (rsum x).
Proof. intros x Hx. apply (big_fin T OP fin OL). intros r Hr. apply rts_bound in Hr. apply vl_fin; auto. apply lx; auto. Qed.

Definition msg (x : list nat) (v k : nat) : T := match childf v k with Some c => vl c (nth c x 0) | None => o_neutral OP end.
Lemma msg_fin : forall x v k, labeling g x -> fin (msg x v k).
Proof.
  intros x v k Hx. unfold msg. destruct (childf v k) as [c|] eqn:C; [|apply (ol_neutral _ _ OL)]. destruct (child_facts T g W order _ _ _ C) as (_ & _ & B & _). apply vl_fin; auto. apply lx; auto.
Qed.
Definition ctr (x : list nat) (v k : nat) : T := contr T OP g order valb st v k (nth v x 0).
Lemma ctr_fin : forall x v k, labeling g x -> v < n -> fin (ctr x v k).
Proof.
  intros x v k Hx Hv. unfold ctr. apply (contr_fin T OP ACC fin OL g W FG order); auto; [apply lx; auto|]. intros c Hc. destruct (NOK v Hv) as [_ H]. split; [apply H; auto; apply lx; auto|].
  intros s Hs. apply vl_fin; auto. eapply (child_facts T g W order); eauto.
Qed.
Lemma own_child : forall x v k c, childf v k = Some c -> own x v k = pv T OP g v k (nth v x 0) (nth c x 0).
Proof. intros x v k c H. unfold own, owned, is_child. rewrite H. cbn [orb]. symmetry. eapply pv_x; eauto. Qed.
Lemma own_nochild : forall x v k, childf v k = None -> own x v k = uv T OP g v k (nth v x 0).
Proof.
  intros x v k H. unfold own, owned, is_child, unary_of, uv, val. rewrite H. cbn [orb]. destruct (nth_error (v_factors g) k) as [[vis f]|]; auto. destruct vis as [|a [|? ?]]; auto. cbn [fst snd].
  destruct (Nat.eqb_spec a v) as [->|N]; auto.
Qed.
(** The buffered value of one factor is not worse than any labeling's, and equal for the recorded label. *)
Lemma ctr_best : forall x v k, labeling g x -> v < n -> a_bop ACC (o_op OP (own x v k) (msg x v k)) (ctr x v k) = false.
Proof.
  intros x v k Hx Hv. unfold msg. destruct (childf v k) as [c|] eqn:C.
  - rewrite (own_child _ _ _ _ C). destruct (NOK v Hv) as [_ H]. destruct (H k c (nth v x 0) C (lx _ _ Hx Hv)) as (_ & _ & B). apply B. apply lx; auto. eapply (child_facts T g W order); eauto.
  - rewrite (own_nochild _ _ _ C), (op_unit_r T OP fin OL) by (apply (uv_fin T OP fin OL g W FG); auto; apply lx; auto). unfold ctr, contr. rewrite C. apply (al_irrefl _ _ _ AL). apply (uv_fin T OP fin OL g W FG); auto. apply lx; auto.
Qed.
Definition consistent (x : list nat) : Prop := forall v k c, childf v k = Some c -> nth c x 0 = sl v (slot v k (nth v x 0)).
Lemma ctr_eq : forall x v k, labeling g x -> v < n -> consistent x -> o_op OP (own x v k) (msg x v k) = ctr x v k.
Proof.
  intros x v k Hx Hv HC. unfold msg, ctr, contr. destruct (childf v k) as [c|] eqn:C.
  - rewrite (own_child _ _ _ _ C). rewrite (HC _ _ _ C). auto.
  - rewrite (own_nochild _ _ _ C), (op_unit_r T OP fin OL); auto. apply (uv_fin T OP fin OL g W FG); auto. apply lx; auto.
Qed.

Lemma msum : forall x, labeling g x -> big (seq 0 n) (fun v => big (K v) (msg x v)) = big allkids (fun c => vl c (nth c x 0)).
Proof.
  intros x Hx. unfold allkids. rewrite big_flat_map.
  - apply big_ext. intros v _. unfold kids. generalize (K v). intros l. induction l as [|k l IH]; auto. rewrite big_cons. cbn [flat_map]. unfold msg at 1. destruct (childf v k) as [c|] eqn:C.
    + cbn [app]. rewrite big_cons. f_equal. auto.
    + rewrite (ol_unit _ _ OL); auto. apply (big_fin T OP fin OL). intros. apply msg_fin. auto.
  - intros v c _ Hc. apply in_kids in Hc. destruct Hc as [k C]. destruct (child_facts T g W order _ _ _ C) as (_ & _ & B & _). apply vl_fin; auto. apply lx; auto.
Qed.
Lemma asum : forall x, labeling g x -> big (seq 0 n) (fun v => vl v (nth v x 0)) = o_op OP (big allkids (fun c => vl c (nth c x 0))) (rsum x).
Proof.
  intros x Hx. assert (F : forall v, In v (seq 0 n) -> fin (vl v (nth v x 0))) by (intros v Hv; apply in_seq in Hv; apply vl_fin; [lia|apply lx; auto; lia]).
  rewrite (big_perm T OP fin OL _ _ _ (split_perm n allkids allkids_NoDup allkids_bound)) by auto. apply (big_app T OP fin OL).
  intros k Hk. apply in_app_iff in Hk. destruct Hk as [Hk|Hk]; apply F; apply in_seq; [apply allkids_bound in Hk|apply rts_bound in Hk]; lia.
Qed.
Lemma asum_ctr : forall x, labeling g x -> big (seq 0 n) (fun v => vl v (nth v x 0)) = big (seq 0 n) (fun v => big (K v) (ctr x v)).
Proof.
  intros x Hx. apply big_ext. intros v Hv. apply in_seq in Hv. destruct (NOK v ltac:(lia)) as [H _]. destruct (H (nth v x 0)) as (_ & _ & E); [apply lx; auto; lia|]. auto.
Qed.
Lemma bsum : forall x, labeling g x -> big (seq 0 n) (fun v => big (K v) (fun k => o_op OP (own x v k) (msg x v k))) = o_op OP (big allkids (fun c => vl c (nth c x 0))) (osum x).
Proof.
  intros x Hx. rewrite (big_ext T OP _ _ (fun v => o_op OP (big (K v) (own x v)) (big (K v) (msg x v)))).
  - rewrite big_op; [|intros; apply (big_fin T OP fin OL); intros; apply own_fin; auto|intros; apply (big_fin T OP fin OL); intros; apply msg_fin; auto].
    rewrite msum by auto. apply (ol_comm _ _ OL); [apply osum_fin; auto|]. apply (big_fin T OP fin OL). intros c Hc. apply allkids_bound in Hc. apply vl_fin; auto. apply lx; auto.
  - intros v _. apply big_op; intros; [apply own_fin|apply msg_fin]; auto.
Qed.
Lemma kidsum_fin : forall x, labeling g x -> fin (big allkids (fun c => vl c (nth c x 0))).
Proof. intros x Hx. apply (big_fin T OP fin OL). intros c Hc. apply allkids_bound in Hc. apply vl_fin; auto. apply lx; auto. Qed.
Lemma osum_rsum : forall x, labeling g x -> a_bop ACC (osum x) (rsum x) = false.
Proof.
  intros x Hx. rewrite <- (al_mono _ _ _ AL (osum x) (rsum x) (big allkids (fun c => vl c (nth c x 0)))); auto using osum_fin, rsum_fin, kidsum_fin.
  rewrite <- bsum, <- asum, asum_ctr by auto. apply big_mono.
  - intros v Hv. apply (big_fin T OP fin OL). intros. apply (ol_op _ _ OL); [apply own_fin|apply msg_fin]; auto.
  - intros v Hv. apply in_seq in Hv. apply (big_fin T OP fin OL). intros. apply ctr_fin; auto. lia.
  - intros v Hv. apply in_seq in Hv. apply big_mono.
    + intros. apply (ol_op _ _ OL); [apply own_fin|apply msg_fin]; auto.
    + intros. apply ctr_fin; auto. lia.
    + intros k _. apply ctr_best; auto. lia.
Qed.
Lemma osum_rsum_eq : forall x, labeling g x -> consistent x -> osum x = rsum x.
Proof.
  intros x Hx HC. assert (E : o_op OP (big allkids (fun c => vl c (nth c x 0))) (osum x) = o_op OP (big allkids (fun c => vl c (nth c x 0))) (rsum x)).
  { rewrite <- bsum, <- asum, asum_ctr by auto. apply big_ext. intros v Hv. apply in_seq in Hv. apply big_ext. intros k _. apply ctr_eq; auto. lia. }
  rewrite <- (ol_undo _ _ OL (big allkids (fun c => vl c (nth c x 0))) (osum x)) by auto using osum_fin, kidsum_fin. rewrite E. apply (ol_undo _ _ OL); auto using rsum_fin, kidsum_fin.
Qed.

Definition root_best (x : list nat) : Prop := forall r l, In r rts -> l < L r -> a_bop ACC (vl r l) (vl r (nth r x 0)) = false.
Theorem consistent_optimal : forall x, labeling g x -> consistent x -> root_best x -> optimal OP ACC g x.
Proof.
  intros x Hx HC HR. split; auto. intros y Hy. rewrite total_cmp by auto. rewrite (osum_rsum_eq x) by auto.
  apply (al_negtrans _ _ _ AL _ (rsum y)); auto using osum_fin, rsum_fin; [apply osum_rsum; auto|]. apply big_mono.
  - intros r Hr. apply rts_bound in Hr. apply vl_fin; auto. apply lx; auto.
  - intros r Hr. apply rts_bound in Hr. apply vl_fin; auto. apply lx; auto.
  - intros r Hr. apply HR; auto. apply rts_bound in Hr. apply lx; auto.
Qed.

(** *** arg *)
Variable d : dp T.
Hypothesis DO : d_order d = order.
Hypothesis DV : d_val d = valb.
Hypothesis DS : d_st d = st.

Definition astep (node ln : nat) (p : list (option nat) * list nat) (k : nat) : list (option nat) * list nat :=
  match childf node k with Some c => (upd (fst p) c (Some (sl node (slot node k ln))), c :: snd p) | None => p end.

Lemma arg_factor_ok : forall node ln x stack ks1 k ks2, node < n -> K node = ks1 ++ k :: ks2 -> length x = n -> nth_error x node = Some (Some ln) -> ln < L node ->
  arg_factor T g d node (x, stack, length (filter (is_child T g order node) ks1)) k =
    Ret (astep node ln (x, stack) k, length (filter (is_child T g order node) (ks1 ++ [k]))).
Proof.
  intros node ln x stack ks1 k ks2 Hn EA Lx Ex Hln. assert (Hk : In k (K node)) by (rewrite EA; apply in_app_iff; right; left; auto).
  apply v_adj_spec in Hk. destruct Hk as (fc & Ek & Hin). unfold arg_factor. rewrite (rd_Ret _ _ _ _ Ek). cbn [bind].
  rewrite filter_app, app_length. cbn [filter]. unfold astep.
  assert (IC : is_child T g order node k = match childf node k with Some _ => true | None => false end) by reflexivity. rewrite IC. clear IC.
  assert (NC : forall (C : childf node k = None), Ret (x, stack, length (filter (is_child T g order node) ks1)) = Ret (match childf node k with Some c => (upd (fst (x, stack)) c (Some (sl node (slot node k ln))), c :: snd (x, stack)) | None => (x, stack) end, length (filter (is_child T g order node) ks1) + length (if match childf node k with Some _ => true | None => false end then [k] else []))).
  { intros ->. cbn [length]. rewrite Nat.add_0_r. auto. }
  destruct fc as [vis f]. cbn [fst snd] in *. destruct vis as [|v0 [|v1 [|? ?]]]; [destruct Hin| | |].
  - apply NC. unfold child_of. rewrite Ek. auto.
  - assert (HE : edge g k v0 v1) by (exists ([v0; v1], f); auto). destruct (edge_bound T g W _ _ _ HE) as (B0 & B1 & ND). fold n in B0, B1.
    rewrite DO. rewrite !(rd_nth _ order _ 0) by (rewrite (od_len _ _ _ _ _ OD); auto). cbn [bind]. fold (o node) (o v0) (o v1).
    assert (CO : childf node k = if (v0 =? node) && (o node <? o v1) then Some v1 else if (v1 =? node) && (o node <? o v0) then Some v0 else None) by (unfold child_of; rewrite Ek; auto).
    assert (ASG : forall c, childf node k = Some c -> (s <- rd2 (d_st d) node (length (filter (is_child T g order node) ks1) * nth node (v_labels g) 0 + ln) ;; x0 <- wr x c (Some s) ;; Ret (x0, c :: stack, S (length (filter (is_child T g order node) ks1)))) =
       Ret (upd x c (Some (sl node (slot node k ln))), c :: stack, length (filter (is_child T g order node) ks1) + 1)).
    { intros c C. destruct (NOK node Hn) as [_ H]. destruct (H k c ln C Hln) as (R & _). unfold DpInfer.slot in R at 1. rewrite (kidx_at T g order _ _ _ _ EA) in R. unfold lab in R at 1. rewrite DS, R. cbn [bind].
      rewrite wr_Ret by (rewrite Lx; eapply (child_facts T g W order); eauto). cbn [bind]. rewrite Nat.add_1_r. auto. }
    destruct (Nat.eqb_spec v1 node) as [E1|N1].
    + assert (N0 : v0 <> node) by congruence. apply Nat.eqb_neq in N0. rewrite N0 in *. cbn [andb] in *. destruct (o node <? o v0) eqn:OO.
      * rewrite (rd_Ret _ _ _ _ Ex). cbn [bind get]. rewrite CO. cbn [fst snd length]. rewrite (ASG v0 CO). cbn [bind]. auto.
      * cbn [bind]. apply NC. auto.
    + cbn [andb bind] in *. destruct ((v0 =? node) && (o node <? o v1)) eqn:OO.
      * rewrite (rd_Ret _ _ _ _ Ex). cbn [bind get]. rewrite CO. cbn [fst snd length]. apply (ASG v1 CO).
      * apply NC. auto.
  - apply NC. unfold child_of. rewrite Ek. auto.
Qed.
Lemma astep_keep : forall node ln ks x stack, nth_error (fst (fold_left (astep node ln) ks (x, stack))) node = nth_error x node /\ length (fst (fold_left (astep node ln) ks (x, stack))) = length x.
Proof.
  intros node ln. induction ks as [|k ks IH]; intros x stack; auto. cbn [fold_left]. unfold astep at 2 4. destruct (childf node k) as [c|] eqn:C; auto. cbn [fst snd].
  destruct (IH (upd x c (Some (sl node (slot node k ln)))) (c :: stack)) as [A B]. rewrite A, B, length_upd. split; auto. apply nth_error_upd_neq. intros ->. apply (child_facts T g W order) in C. lia.
Qed.
Lemma arg_node_ok : forall node ln x stack, node < n -> length x = n -> nth_error x node = Some (Some ln) -> ln < L node ->
  exists cc, foldM (arg_factor T g d node) (K node) (x, stack, 0) = Ret (fold_left (astep node ln) (K node) (x, stack), cc).
Proof.
  intros node ln x stack Hn Lx Ex Hln.
  assert (G : forall ks2 ks1 p, K node = ks1 ++ ks2 -> length (fst p) = n -> nth_error (fst p) node = Some (Some ln) ->
    exists cc, foldM (arg_factor T g d node) ks2 (p, length (filter (is_child T g order node) ks1)) = Ret (fold_left (astep node ln) ks2 p, cc)).
  { induction ks2 as [|k ks2 IH]; intros ks1 [y s] EA Ly Ey; [eexists; reflexivity|]. cbn [foldM fold_left]. rewrite (arg_factor_ok node ln y s ks1 k ks2) by auto. cbn [bind].
    apply IH; [rewrite <- app_assoc; auto| |]; destruct (astep_keep node ln [k] y s) as [A B]; cbn [fold_left] in A, B; [rewrite B; auto|rewrite A; auto]. }
  apply (G (K node) [] (x, stack)); auto.
Qed.
(** What processing a variable does to the labels and to the stack. *)
Lemma astep_spec : forall node ln ks x stack, NoDup ks -> length x = n ->
  exists cs, snd (fold_left (astep node ln) ks (x, stack)) = cs ++ stack /\ NoDup cs /\ (forall c, In c cs <-> exists k, In k ks /\ childf node k = Some c) /\
    (forall k c, In k ks -> childf node k = Some c -> nth_error (fst (fold_left (astep node ln) ks (x, stack))) c = Some (Some (sl node (slot node k ln)))) /\
    (forall v, ~ In v cs -> nth_error (fst (fold_left (astep node ln) ks (x, stack))) v = nth_error x v).
Proof.
  intros node ln ks. induction ks as [|k ks IH] using rev_ind; intros x stack ND Lx.
  - exists []. cbn. split; auto. split; [constructor|]. split; [|split; [intros ? ? []|auto]]. intros c. split; [intros []|intros (k & [] & _)].
  - assert (ND1 : NoDup ks) by (apply NoDup_remove_1 in ND; rewrite app_nil_r in ND; auto). assert (NK : ~ In k ks) by (apply NoDup_remove_2 in ND; rewrite app_nil_r in ND; auto).
    destruct (IH x stack ND1 Lx) as (cs & E & NDc & HI & HA & HU). rewrite fold_left_app. cbn [fold_left]. set (p := fold_left (astep node ln) ks (x, stack)) in *.
    assert (LP : length (fst p) = n). { destruct (astep_keep node ln ks x stack) as [_ X]. unfold p. rewrite X. auto. }
    unfold astep at 1 2 3. destruct (childf node k) as [c|] eqn:C; cbn [fst snd].
    + destruct (child_facts T g W order _ _ _ C) as (_ & _ & Bc & _). assert (NC : ~ In c cs). { intros X. apply HI in X. destruct X as (k' & Hk' & C'). apply NK. destruct (parent_one T g W order nodes st_0 OD _ _ _ _ _ C C') as [-> _]. auto. }
      exists (c :: cs). split; [rewrite E; auto|]. split; [constructor; auto|]. split; [|split].
      * intros c'. cbn [In]. rewrite HI. split.
        -- intros [<-|(k' & Hk' & C')]; [exists k|exists k']; rewrite in_app_iff; cbn; auto.
        -- intros (k' & Hk' & C'). apply in_app_iff in Hk'. destruct Hk' as [Hk'|[<-|[]]]; [right; eauto|left; congruence].
      * intros k' c' Hk' C'. apply in_app_iff in Hk'. destruct Hk' as [Hk'|[<-|[]]].
        -- rewrite nth_error_upd_neq; [apply HA; auto|]. intros ->. apply NC. apply HI. eauto.
        -- rewrite C in C'. injection C' as <-. apply nth_error_upd_eq. rewrite LP. auto.
      * intros v Hv. rewrite nth_error_upd_neq; [apply HU; intros X; apply Hv; right; auto|]. intros ->. apply Hv. left. auto.
    + exists cs. split; auto. split; auto. split; [|split; auto].
      * intros c'. rewrite HI. split; intros (k' & Hk' & C'); exists k'; split; auto; [apply in_app_iff; auto|]. apply in_app_iff in Hk'. destruct Hk' as [?|[<-|[]]]; auto. congruence.
      * intros k' c' Hk' C'. apply in_app_iff in Hk'. destruct Hk' as [?|[<-|[]]]; auto. congruence.
Qed.

Definition jinv (x : list (option nat)) (stack : list nat) : Prop :=
  length x = n /\ (forall v l, nth_error x v = Some (Some l) -> l < L v) /\
  (forall v, In v stack -> exists l, nth_error x v = Some (Some l)) /\
  (forall v l k c, nth_error x v = Some (Some l) -> ~ In v stack -> childf v k = Some c -> nth_error x c = Some (Some (sl v (slot v k l)))) /\
  (forall r l, In r rts -> nth_error x r = Some (Some l) -> forall l', l' < L r -> a_bop ACC (vl r l') (vl r l) = false).
Lemma jinv_step : forall node ln stack x, jinv x (node :: stack) -> ~ In node stack -> nth_error x node = Some (Some ln) ->
  jinv (fst (fold_left (astep node ln) (K node) (x, stack))) (snd (fold_left (astep node ln) (K node) (x, stack))).
Proof.
  intros node ln stack x (Lx & HB & HS & HC & HR) NI Ex. destruct (astep_spec node ln (K node) x stack (v_adj_NoDup T g node) Lx) as (cs & E & NDc & HI & HA & HU).
  destruct (astep_keep node ln (K node) x stack) as [KE KL]. set (p := fold_left (astep node ln) (K node) (x, stack)) in *.
  assert (Hn : node < n) by (rewrite <- Lx; apply nth_error_Some; congruence).
  assert (AN : forall v l, nth_error (fst p) v = Some (Some l) -> (exists k, In k (K node) /\ childf node k = Some v /\ l = sl node (slot node k ln)) \/ (~ In v cs /\ nth_error x v = Some (Some l))).
  { intros v l H. destruct (in_dec Nat.eq_dec v cs) as [I|I]; [|right; split; auto; rewrite <- HU; auto]. left. apply HI in I. destruct I as (k & Hk & C). exists k. split; auto. split; auto. rewrite (HA k v Hk C) in H. congruence. }
  split; [rewrite KL; auto|]. split; [|split; [|split]].
  - intros v l H. destruct (AN v l H) as [(k & Hk & C & ->)|[_ H']]; [|apply HB; auto]. destruct (NOK node Hn) as [_ X]. destruct (X k v ln C (HB _ _ Ex)) as (_ & Y & _). auto.
  - intros v Hv. rewrite E in Hv. apply in_app_iff in Hv. destruct (in_dec Nat.eq_dec v cs) as [I|I].
    + apply HI in I. destruct I as (k & Hk & C). eexists. apply (HA k v Hk C).
    + rewrite HU by auto. apply HS. right. destruct Hv; [contradiction|auto].
  - intros v l k c H Hv C. rewrite E in Hv. assert (NC : ~ In v cs) by (intros X; apply Hv; apply in_app_iff; auto). rewrite HU in H by auto. destruct (Nat.eq_dec v node) as [->|N].
    + rewrite Ex in H. injection H as <-. apply HA; auto. eapply (child_facts T g W order); eauto.
    + rewrite HU. * apply HC; auto. intros [X|X]; [congruence|]. apply Hv. apply in_app_iff. auto.
      * intros X. apply HI in X. destruct X as (k' & _ & C'). apply N. apply (parent_one T g W order nodes st_0 OD _ _ _ _ _ C C').
  - intros r l Hr H. destruct (AN r l H) as [(k & Hk & C & _)|[_ H']]; [|apply HR; auto]. exfalso. unfold rts in Hr. apply filter_In in Hr. destruct Hr as [_ Hr].
    assert (X : In r allkids) by (apply in_allkids; eauto). apply mem_In in X. rewrite X in Hr. discriminate.
Qed.

Lemma arg_loop_ok : forall var fuel x stack done, jinv x stack -> NoDup (done ++ stack) -> (forall w, In w (done ++ stack) -> w < n /\ o var <= o w /\ (w = var \/ exists q k, In q done /\ childf q k = Some w)) ->
  n - length done < fuel -> exists x', arg_loop T g d fuel x stack = Ret x' /\ jinv x' [] /\ forall v l, nth_error x v = Some (Some l) -> exists l', nth_error x' v = Some (Some l').
Proof.
  intros var. induction fuel as [|fuel IH]; intros x stack done J ND HD HF; [lia|]. cbn [arg_loop]. destruct stack as [|node stack]; [exists x; eauto|].
  pose proof J as (Lx & HB & HS & HC & HR). destruct (HS node) as [ln Ex]; [left; auto|].
  assert (NI : ~ In node stack) by (apply NoDup_remove_2 in ND; intros X; apply ND; apply in_app_iff; auto).
  assert (NID : ~ In node done) by (apply NoDup_remove_2 in ND; intros X; apply ND; apply in_app_iff; auto).
  destruct (HD node) as (Hn & On & _); [apply in_app_iff; right; left; auto|].
  destruct (arg_node_ok node ln x stack Hn Lx Ex (HB _ _ Ex)) as [cc EF]. rewrite EF. cbn [bind].
  pose proof (jinv_step node ln stack x J NI Ex) as J'.
  destruct (astep_spec node ln (K node) x stack (v_adj_NoDup T g node) Lx) as (cs & E & NDc & HI & HA & HU).
  destruct (fold_left (astep node ln) (K node) (x, stack)) as [x1 s1] eqn:EP. cbn [fst snd] in *. subst s1.
  assert (ND2 : NoDup ((done ++ [node]) ++ stack)). { rewrite <- app_assoc. cbn. auto. }
  destruct (IH x1 (cs ++ stack) (done ++ [node])) as (x' & EX & JX & HX); auto.
  - apply (Permutation_NoDup (l := cs ++ ((done ++ [node]) ++ stack))).
    + rewrite (app_assoc cs (done ++ [node]) stack), (app_assoc (done ++ [node]) cs stack). apply Permutation_app_tail. apply Permutation_app_comm.
    + apply NoDup_app_intro; auto. intros c Hc H. apply HI in Hc. destruct Hc as (k & _ & C). destruct (child_facts T g W order _ _ _ C) as (_ & _ & _ & N & LT).
      assert (HW : In c (done ++ node :: stack)) by (rewrite <- app_assoc in H; auto). destruct (HD c HW) as (_ & _ & [->|(q & k' & Hq & C')]); [lia|].
      destruct (parent_one T g W order nodes st_0 OD _ _ _ _ _ C C') as [_ ->]. auto.
  - intros w Hw. apply in_app_iff in Hw. destruct Hw as [Hw|Hw]; [|apply in_app_iff in Hw; destruct Hw as [Hw|Hw]].
    + apply in_app_iff in Hw. destruct Hw as [Hw|[<-|[]]]; [destruct (HD w) as (A & B & C); [apply in_app_iff; auto|]|destruct (HD node) as (A & B & C); [apply in_app_iff; right; left; auto|]]; split; auto; split; auto;
        (destruct C as [C|(q & k & Q & C)]; [left; auto|right; exists q, k; split; auto; apply in_app_iff; auto]).
    + apply HI in Hw. destruct Hw as (k & _ & C). destruct (child_facts T g W order _ _ _ C) as (_ & _ & Bc & _ & LT). split; auto. split; [lia|]. right. exists node, k. split; auto. apply in_app_iff. right. left. auto.
    + destruct (HD w) as (A & B & C); [apply in_app_iff; right; right; auto|]. split; auto. split; auto. destruct C as [C|(q & k & Q & C)]; [left; auto|right; exists q, k; split; auto; apply in_app_iff; auto].
  - rewrite app_length. cbn [length]. assert (length (done ++ node :: stack) <= n) by (apply NoDup_bounded_length; auto; intros w Hw; apply HD; auto). rewrite app_length in H. cbn [length] in H. lia.
  - exists x'. split; auto. split; auto. intros v l Hv. destruct (in_dec Nat.eq_dec v cs) as [I|I]; [|eapply HX; rewrite HU; eauto]. apply HI in I. destruct I as (k & Hk & C). eapply HX. apply (HA k v Hk C).
Qed.

Lemma best_label_ok : forall v, v < n -> exists s, best_label T ACC g d v = Ret (vl v s, Some s) /\ s < L v /\ forall s', s' < L v -> a_bop ACC (vl v s') (vl v s) = false.
Proof.
  intros v Hv. destruct (best_loop T OP ACC fin AL AS g (fun l => vl v l) (L v) (L_pos T g W v Hv) (fun l Hl => vl_fin v l Hv Hl) None) as (s & E & Hs & HB).
  exists s. split; auto. rewrite <- E. unfold best_label. rewrite DV. fold (lab T g v). generalize (a_neutral ACC, @None nat).
    assert (G : forall l p, (forall c, In c l -> c < L v) -> foldM (fun (p : T * option nat) i => w <- rd2 valb v i ;; Ret (if a_bop ACC w (fst p) then (w, Some i) else p)) l p =
       Ret (fold_left (fun (p : T * option nat) c => if a_bop ACC (vl v c) (fst p) then (vl v c, Some c) else p) l p)).
    { induction l as [|c l IH]; intros p Hl; auto. cbn [foldM fold_left]. destruct (NOK v Hv) as [X _]. destruct (X c) as (R & _); [apply Hl; left; auto|]. rewrite R. cbn [bind]. apply IH. intros. apply Hl. right. auto. }
    intros p. apply G. intros c Hc. apply in_seq in Hc. lia.
Qed.
Lemma arg_var_ok : forall x v, jinv x [] -> v < n ->
  exists x', arg_var T ACC g d (S n) x v = Ret x' /\ jinv x' [] /\ (exists l, nth_error x' v = Some (Some l)) /\ forall w l, nth_error x w = Some (Some l) -> exists l', nth_error x' w = Some (Some l').
Proof.
  intros x v J Hv. pose proof J as (Lx & HB & HS & HC & HR). unfold arg_var. destruct (nth_error x v) as [ol|] eqn:E; [|apply nth_error_None in E; lia].
  rewrite (rd_Ret _ _ _ _ E). cbn [bind]. destruct ol as [l|]; [exists x; split; auto; split; auto; split; eauto|]. destruct (best_label_ok v Hv) as (s & Es & Hs & HBst). rewrite Es. cbn [bind]. rewrite wr_Ret by lia. cbn [bind].
  destruct (arg_loop_ok v (S n) (upd x v (Some s)) [v] []) as (x' & EX & JX & HX).
  - split; [rewrite length_upd; auto|]. assert (AN : forall w l, nth_error (upd x v (Some s)) w = Some (Some l) -> (w = v /\ l = s) \/ (w <> v /\ nth_error x w = Some (Some l))).
    { intros w l H. destruct (Nat.eq_dec w v) as [->|N]; [rewrite nth_error_upd_eq in H by lia; left; split; congruence|rewrite nth_error_upd_neq in H by auto; auto]. }
    split; [|split; [|split]].
    + intros w l H. apply AN in H. destruct H as [[-> ->]|[_ H]]; auto.
    + intros w [<-|[]]. exists s. apply nth_error_upd_eq. lia.
    + intros w l k c H NI C. apply AN in H. destruct H as [[-> ->]|[N H]]; [exfalso; apply NI; left; auto|]. pose proof (HC w l k c H ltac:(intros []) C) as X. destruct (Nat.eq_dec c v) as [->|N']; [congruence|]. rewrite nth_error_upd_neq; auto.
    + intros r l Hr H. apply AN in H. destruct H as [[-> ->]|[_ H]]; auto.
  - cbn. constructor; [intros []|constructor].
  - intros w [<-|[]]. auto.
  - cbn. lia.
  - exists x'. split; auto. split; auto. split; [eapply HX; apply nth_error_upd_eq; lia|]. intros w l H. destruct (Nat.eq_dec w v) as [->|N]; [eapply HX; apply nth_error_upd_eq; lia|]. eapply HX. rewrite nth_error_upd_neq; eauto.
Qed.

Theorem arg_ok : d_started d = true -> exists x, dp_arg T ACC g d = Ret (map Some x, true) /\ optimal OP ACC g x.
Proof.
  intros ST. unfold dp_arg. rewrite ST. fold n.
  assert (G : forall j, j <= n -> exists x, foldM (arg_var T ACC g d (S n)) (seq 0 j) (repeat None n) = Ret x /\ jinv x [] /\ forall v, v < j -> exists l, nth_error x v = Some (Some l)).
  { induction j as [|j IH]; intros Hj.
    - exists (repeat None n). split; auto. split; [|intros; lia].
      assert (X : forall v l, nth_error (repeat (@None nat) n) v <> Some (Some l)). { intros v l H. apply nth_error_In in H. apply repeat_spec in H. discriminate. }
      split; [apply repeat_length|]. split; [intros v l H; destruct (X _ _ H)|]. split; [intros v []|]. split; [intros v l k c H; destruct (X _ _ H)|intros r l _ H; destruct (X _ _ H)].
    - destruct IH as (x & E & J & HA); [lia|]. rewrite seq_S, foldM_app, E. cbn [bind foldM]. rewrite Nat.add_0_l. destruct (arg_var_ok x j J Hj) as (x' & E' & J' & Hj' & HX). rewrite E'. cbn [bind]. exists x'. split; auto. split; auto.
      intros v Hv. destruct (Nat.eq_dec v j) as [->|N]; auto. destruct (HA v) as [l Hl]; [lia|]. eapply HX; eauto. }
  destruct (G n (le_n _)) as (x & E & (Lx & HB & _ & HC & HR) & HA). rewrite E. cbn [bind].
  set (y := map (fun q => match q with Some l => l | None => 0 end) x).
  assert (EX : x = map Some y). { unfold y. rewrite map_map. rewrite <- (map_id x) at 1. apply map_ext_in. intros q Hq. apply In_nth_error in Hq. destruct Hq as [v Hv]. destruct (HA v) as [l Hl]; [rewrite <- Lx; apply nth_error_Some; congruence|]. rewrite Hv in Hl. injection Hl as ->. auto. }
  assert (NY : forall v, v < n -> nth_error x v = Some (Some (nth v y 0))).
  { intros v Hv. rewrite EX. rewrite nth_error_map. rewrite (nth_error_nth' y 0); auto. unfold y. rewrite map_length. lia. }
  exists y. split; [rewrite EX; auto|]. apply consistent_optimal.
  - unfold labeling, in_shape. assert (LY : length y = length (v_labels g)) by (unfold y; rewrite map_length; auto).
    apply Forall2_nth_intro; auto. intros v Hv. apply HB. apply NY. unfold n. lia.
  - intros v k c C. destruct (child_facts T g W order _ _ _ C) as (_ & Bv & Bc & _). pose proof (HC v _ k c (NY v Bv) ltac:(intros []) C) as X. rewrite (NY c Bc) in X. congruence.
  - intros r l Hr Hl. apply (HR r); auto. apply NY. apply rts_bound. auto.
Qed.
End Opt.
