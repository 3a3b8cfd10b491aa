(** ReduceNegativeTerms and ToQuadratic keep the minimum over the additional nodes. *)
From Coq Require Import QArith Qcanon Sorting.Sorted Lqa.
From Verif Require Import Base HoeModel HoeSpec HoeProofs HoeElim.
Open Scope nat_scope.

Lemma q_of_Z_succ n : q_of_Z (1 - Z.of_nat (S n)) = (q_of_Z (1 - Z.of_nat n) - 1)%Qc.
Proof.
  unfold q_of_Z. apply Qc_is_canon. unfold Qcminus, Qcplus, Qcopp, Q2Qc. cbn [this]. rewrite !Qred_correct. rewrite Nat2Z.inj_succ.
  replace (1 - Z.succ (Z.of_nat n))%Z with ((1 - Z.of_nat n) + (-1))%Z by lia. rewrite inject_Z_plus. reflexivity.
Qed.
Lemma q_of_Z_one : q_of_Z (1 - Z.of_nat 0) = 1%Qc.
Proof. reflexivity. Qed.

Definition gap (c : Qc) (vs : list nat) (x : nat -> bool) : Qc :=
  (qsum (map (fun v => if x v then c else 0%Qc) vs) + c * q_of_Z (1 - Z.of_nat (length vs)))%Qc.
Lemma gap_ok c vs x : (c <= 0)%Qc -> (mono c vs x <= gap c vs x)%Qc /\ (forallb x vs = true -> gap c vs x = c).
Proof.
  intros C. induction vs as [|v vs [IH1 IH2]].
  - unfold gap, mono. cbn [map qsum length forallb]. rewrite q_of_Z_one. replace (0 + c * 1)%Qc with c by ring. split; [apply Qcle_refl|reflexivity].
  - assert (G : gap c (v :: vs) x = (gap c vs x - (if x v then 0 else c))%Qc).
    { unfold gap. cbn [map qsum length]. rewrite q_of_Z_succ. destruct (x v); ring. }
    rewrite G. unfold mono in *. cbn [forallb]. destruct (x v); cbn [andb].
    + replace (gap c vs x - 0)%Qc with (gap c vs x) by qring. auto.
    + split; [|discriminate]. destruct (forallb x vs); qlra.
Qed.

Lemma q_value_ext q x y : q_closed q -> (forall v, v < q_nodes q -> x v = y v) -> q_value q x = q_value q y.
Proof.
  intros [U P] H. unfold q_value. f_equal; f_equal; apply map_ext_in.
  - intros [v [e0 e1]] I. rewrite Forall_forall in U. unfold un_value. rewrite (H v); [reflexivity|apply (U _ I)].
  - intros [[u v] [[[a b] c] d]] I. rewrite Forall_forall in P. destruct (P _ I). unfold pw_value. cbn in *. rewrite (H u), (H v) by auto. reflexivity.
Qed.
Lemma add_unary_ok v e0 e1 q : q_closed q -> v < q_nodes q -> exists q', qr_AddUnaryTerm v e0 e1 q = Ret q' /\ q_nodes q' = q_nodes q /\ q_closed q' /\
  forall x, q_value q' x = (q_value q x + if x v then e1 else e0)%Qc.
Proof.
  intros [U P] L. unfold qr_AddUnaryTerm. rewrite (proj2 (Nat.ltb_lt _ _) L). eexists. split; [reflexivity|]. split; [reflexivity|]. split; [split; cbn; auto|].
  - apply Forall_app. split; auto.
  - intros x. unfold q_value. cbn [q_un q_pw]. rewrite map_app, qsum_app. cbn. destruct (x v); qring.
Qed.
Lemma add_pairwise_ok u v a b c d q : q_closed q -> u < q_nodes q -> v < q_nodes q -> u <> v -> exists q', qr_AddPairwiseTerm u v a b c d q = Ret q' /\ q_nodes q' = q_nodes q /\ q_closed q' /\
  forall x, q_value q' x = (q_value q x + pw_value x (u, v, (a, b, c, d)))%Qc.
Proof.
  intros [U P] Lu Lv N. unfold qr_AddPairwiseTerm. rewrite (proj2 (Nat.ltb_lt _ _) Lu), (proj2 (Nat.ltb_lt _ _) Lv), (proj2 (Nat.eqb_neq _ _) N). cbn [andb negb].
  eexists. split; [reflexivity|]. split; [reflexivity|]. split; [split; cbn; auto|].
  - apply Forall_app. split; auto.
  - intros x. unfold q_value. cbn [q_un q_pw]. rewrite map_app, qsum_app. cbn [map qsum]. qring.
Qed.
Lemma add_star_ok w c : forall vs q, q_closed q -> w < q_nodes q -> Forall (fun v => v < w) vs ->
  exists q', foldM (fun q v => qr_AddPairwiseTerm v w 0%Qc 0%Qc 0%Qc c q) vs q = Ret q' /\ q_nodes q' = q_nodes q /\ q_closed q' /\
    forall x, q_value q' x = (q_value q x + if x w then qsum (map (fun v => if x v then c else 0%Qc) vs) else 0)%Qc.
Proof.
  induction vs as [|v vs IH]; intros q C L F; cbn [foldM].
  - exists q. split; [reflexivity|]. split; [reflexivity|]. split; [exact C|]. intros x. cbn. destruct (x w); qring.
  - inversion F; subst. destruct (add_pairwise_ok v w 0%Qc 0%Qc 0%Qc c q C ltac:(lia) L ltac:(lia)) as (q1 & E1 & N1 & C1 & V1). rewrite E1. cbn [bind].
    destruct (IH q1 C1 ltac:(lia) ltac:(auto)) as (q2 & E2 & N2 & C2 & V2). exists q2. split; [exact E2|]. split; [lia|]. split; [exact C2|]. intros x. rewrite V2, V1. cbn [map qsum pw_value]. destruct (x v), (x w); qring.
Qed.

Lemma mono1 c v x : mono c [v] x = if x v then c else 0%Qc.
Proof. unfold mono. cbn. destruct (x v); reflexivity. Qed.
Lemma forallb_same (f g : nat -> bool) l : (forall v, In v l -> f v = g v) -> forallb f l = forallb g l.
Proof. induction l as [|a l IH]; intros H; cbn; auto. rewrite (H a), IH; [reflexivity|intros; apply H; right; auto|left; auto]. Qed.
Lemma reduce_term_ok n t q : q_closed q -> n <= q_nodes q -> Forall (fun v => v < n) (t_vars t) -> StronglySorted lt (t_vars t) -> 2 <= length (t_vars t) ->
  (2 < length (t_vars t) -> (t_coeff t <= 0)%Qc) ->
  exists q', reduce_term q t = Ret q' /\ q_nodes q <= q_nodes q' /\ q_closed q' /\ min_over (q_nodes q) (q_value q') (fun x => (q_value q x + term_value x t)%Qc).
Proof.
  intros C Ln F SS L2 NP. unfold reduce_term. destruct (t_vars t) as [|v0 [|v1 [|v2 vs]]] eqn:V; try (cbn in L2; lia).
  - inversion F as [|? ? F0 F1]; subst. inversion F1; subst. inversion SS as [|? ? _ Hlt]; subst. inversion Hlt; subst.
    destruct (add_pairwise_ok v0 v1 0%Qc 0%Qc 0%Qc (t_coeff t) q C ltac:(lia) ltac:(lia) ltac:(lia)) as (q1 & E1 & N1 & C1 & V1). exists q1. split; [exact E1|]. split; [lia|]. split; [exact C1|].
    apply min_over_refl. intros x. rewrite V1. unfold term_value. rewrite V, mono2. cbn [pw_value]. destruct (x v0), (x v1); reflexivity.
  - set (vars := v0 :: v1 :: v2 :: vs) in *. cbv zeta. set (w := q_nodes q).
    assert (C0 : q_closed (qr_AddNode 1 q)). { destruct C as [U P]. unfold qr_AddNode. split; cbn. - eapply Forall_impl; [|exact U]. cbn. intros; lia. - eapply Forall_impl; [|exact P]. cbn. intros; lia. }
    destruct (add_star_ok w (t_coeff t) vars (qr_AddNode 1 q) C0) as (q1 & E1 & N1 & C1 & V1); [cbn; unfold w; lia|eapply Forall_impl; [|exact F]; cbn; unfold w; intros; lia|].
    rewrite E1. cbn [bind]. destruct (add_unary_ok w 0%Qc (t_coeff t * q_of_Z (1 - Z.of_nat (length vars)))%Qc q1 C1) as (q2 & E2 & N2 & C2 & V2); [rewrite N1; cbn; unfold w; lia|].
    exists q2. split; [exact E2|]. split; [rewrite N2, N1; cbn; lia|]. split; [exact C2|].
    assert (VV : forall x, q_value q2 x = (q_value q x + if x w then gap (t_coeff t) vars x else 0)%Qc).
    { intros x. rewrite V2, V1. change (q_value (qr_AddNode 1 q) x) with (q_value q x). unfold gap. destruct (x w); qring. }
    assert (NPc : (t_coeff t <= 0)%Qc) by (apply NP; cbn; lia).
    split.
    + intros x. rewrite VV. unfold term_value. rewrite V. destruct (gap_ok (t_coeff t) vars x NPc) as [G _]. destruct (x w); [qlra|]. unfold mono. destruct (forallb x vars); qlra.
    + intros x. exists (fun v => if v =? w then forallb x vars else x v). split; [intros v Hv; destruct (Nat.eqb_spec v w); [unfold w in *; lia|reflexivity]|].
      set (y := fun v => if v =? w then forallb x vars else x v).
      assert (Yw : y w = forallb x vars) by (unfold y; rewrite Nat.eqb_refl; reflexivity).
      assert (Yx : forall v, v < w -> y v = x v) by (intros v Hv; unfold y; destruct (Nat.eqb_spec v w); [lia|reflexivity]).
      assert (Yq : q_value q y = q_value q x) by (apply q_value_ext; auto).
      assert (Ya : forallb y vars = forallb x vars). { apply forallb_same. intros v Hv. apply Yx. rewrite Forall_forall in F. specialize (F v Hv). cbn in F. unfold w. lia. }
      rewrite VV, Yq, Yw. unfold term_value. rewrite V. unfold mono. destruct (gap_ok (t_coeff t) vars y NPc) as [_ G]. rewrite Ya in G. destruct (forallb x vars); [rewrite G; reflexivity|reflexivity].
Qed.

Lemma min_over_plus n e' e f : min_over n e' e -> (forall x y, (forall v, v < n -> y v = x v) -> f y = f x) -> min_over n (fun x => (e' x + f x)%Qc) (fun x => (e x + f x)%Qc).
Proof.
  intros [A B] F. split; [intros x; specialize (A x); qlra|]. intros x. destruct (B x) as (y & Y1 & Y2). exists y. split; auto. rewrite Y2, (F x y Y1). reflexivity.
Qed.

Lemma reduce_terms_ok n : forall ts q, q_closed q -> n <= q_nodes q ->
  Forall (fun t => Forall (fun v => v < n) (t_vars t) /\ StronglySorted lt (t_vars t) /\ 2 <= length (t_vars t) /\ (2 < length (t_vars t) -> (t_coeff t <= 0)%Qc)) ts ->
  exists q', foldM reduce_term ts q = Ret q' /\ q_nodes q <= q_nodes q' /\ q_closed q' /\ min_over (q_nodes q) (q_value q') (fun x => (q_value q x + qsum (map (term_value x) ts))%Qc).
Proof.
  induction ts as [|t ts IH]; intros q C L F; cbn [foldM].
  - exists q. split; [reflexivity|]. split; [lia|]. split; [exact C|]. apply min_over_refl. intros x. cbn. qring.
  - inversion F as [|? ? (F1 & F2 & F3 & F4) F']; subst. destruct (reduce_term_ok n t q C L F1 F2 F3 F4) as (q1 & E1 & L1 & C1 & M1). rewrite E1. cbn [bind].
    destruct (IH q1 C1 ltac:(lia) F') as (q2 & E2 & L2 & C2 & M2). exists q2. split; [exact E2|]. split; [lia|]. split; [exact C2|].
    eapply (min_over_trans _ (q_nodes q1) _ _ _ L1 M2).
    assert (X := min_over_plus _ _ _ (fun x => qsum (map (term_value x) ts)) M1). cbv beta in X.
    eapply (min_over_trans _ (q_nodes q) _ _ _ (le_n _)); [apply X|apply min_over_refl; intros x; cbn [map qsum]; qring].
    intros x y H. f_equal. apply map_ext_in. intros t' Ht. apply mono_ext. intros v Hv. apply H. rewrite Forall_forall in F'. destruct (F' t' Ht) as (B & _). rewrite Forall_forall in B. specialize (B v Hv). cbn in B. lia.
Qed.
Lemma reduce_recs_ok n : forall rs q, q_closed q -> n <= q_nodes q ->
  Forall (fun r => Forall (fun t => Forall (fun v => v < n) (t_vars t) /\ StronglySorted lt (t_vars t) /\ 2 <= length (t_vars t) /\ (2 < length (t_vars t) -> (t_coeff t <= 0)%Qc)) (r_terms r)) rs ->
  exists q', foldM (fun q r => foldM reduce_term (r_terms r) q) rs q = Ret q' /\ q_nodes q <= q_nodes q' /\ q_closed q' /\
    min_over (q_nodes q) (q_value q') (fun x => (q_value q x + qsum (map (fun r => qsum (map (term_value x) (r_terms r))) rs))%Qc).
Proof.
  induction rs as [|r rs IH]; intros q C L F; cbn [foldM].
  - exists q. split; [reflexivity|]. split; [lia|]. split; [exact C|]. apply min_over_refl. intros x. cbn. qring.
  - inversion F as [|? ? F1 F']; subst. destruct (reduce_terms_ok n (r_terms r) q C L F1) as (q1 & E1 & L1 & C1 & M1). rewrite E1. cbn [bind].
    destruct (IH q1 C1 ltac:(lia) F') as (q2 & E2 & L2 & C2 & M2). exists q2. split; [exact E2|]. split; [lia|]. split; [exact C2|].
    eapply (min_over_trans _ (q_nodes q1) _ _ _ L1 M2).
    assert (X := min_over_plus _ _ _ (fun x => qsum (map (fun r => qsum (map (term_value x) (r_terms r))) rs)) M1). cbv beta in X.
    eapply (min_over_trans _ (q_nodes q) _ _ _ (le_n _)); [apply X|apply min_over_refl; intros x; cbn [map qsum]; qring].
    intros x y H. f_equal. apply map_ext_in. intros r' Hr. f_equal. apply map_ext_in. intros t' Ht. apply mono_ext. intros v Hv. apply H. rewrite Forall_forall in F'. specialize (F' r' Hr).
    rewrite Forall_forall in F'. destruct (F' t' Ht) as (B & _). rewrite Forall_forall in B. specialize (B v Hv). cbn in B. lia.
Qed.
Lemma unary_recs_ok n : forall rs q, q_closed q -> n <= q_nodes q -> Forall (fun r => r_id r < n) rs ->
  exists q', foldM (fun q r => qr_AddUnaryTerm (r_id r) 0%Qc (r_coeff r) q) rs q = Ret q' /\ q_nodes q' = q_nodes q /\ q_closed q' /\
    forall x, q_value q' x = (q_value q x + qsum (map (fun r => mono (r_coeff r) [r_id r] x) rs))%Qc.
Proof.
  induction rs as [|r rs IH]; intros q C L F; cbn [foldM].
  - exists q. split; [reflexivity|]. split; [lia|]. split; [exact C|]. intros x. cbn. qring.
  - inversion F; subst. destruct (add_unary_ok (r_id r) 0%Qc (r_coeff r) q C ltac:(lia)) as (q1 & E1 & N1 & C1 & V1). rewrite E1. cbn [bind].
    destruct (IH q1 C1 ltac:(lia) ltac:(auto)) as (q2 & E2 & N2 & C2 & V2). exists q2. split; [exact E2|]. split; [lia|]. split; [exact C2|]. intros x. rewrite V2, V1. cbn [map qsum].
    rewrite mono1. qring.
Qed.

(** *** The whole reduction *)
Lemma to_quadratic_ok D h : wf_hoe D h -> exists h' q, ToQuadratic D h quad_new = Ret (h', q) /\ wf_hoe D h' /\ h_const h' = h_const h /\ length (h_recs h) <= length (h_recs h') <= q_nodes q /\ q_closed q /\
  min_over (length (h_recs h)) (sem h') (sem h) /\ min_over (length (h_recs h')) (q_value q) (sem h').
Proof.
  intros W. destruct (elim_all_ok D h W) as (h' & E & W' & L & K & NP & M). unfold ToQuadratic. rewrite E. cbn [bind]. unfold ReduceNegativeTerms. cbv zeta.
  set (n := length (h_recs h')) in *. destruct W' as [HC W']. rewrite HC. fold n.
  assert (C0 : q_closed (qr_AddNode n quad_new)) by (split; constructor).
  destruct (reduce_recs_ok n (h_recs h') (qr_AddNode n quad_new) C0 ltac:(cbn; lia)) as (q1 & E1 & L1 & C1 & M1).
  { apply Forall_forall. intros r Hr. apply In_nth_error in Hr. destruct Hr as [v Ev]. apply Forall_forall. intros t Ht. destruct (W' v r Ev) as [_ F]. rewrite Forall_forall in F.
    destruct (F t Ht) as ((w & ws & V) & A & B & C). split; [exact B|]. split; [exact A|]. split; [rewrite V; cbn; lia|]. apply (NP v r t Ev Ht). }
  rewrite E1. cbn [bind]. cbn in L1.
  destruct (unary_recs_ok n (h_recs h') q1 C1 L1) as (q2 & E2 & N2 & C2 & V2).
  { apply Forall_forall. intros r Hr. apply In_nth_error in Hr. destruct Hr as [v Ev]. rewrite (proj1 (W' v r Ev)). apply (nth_lt _ _ _ Ev). }
  rewrite E2. cbn [bind]. exists h', q2. split; [reflexivity|]. split; [split; auto|]. split; [exact K|]. split; [lia|]. split; [exact C2|]. split; [exact M|].
  assert (X := min_over_plus _ _ _ (fun x => qsum (map (fun r => mono (r_coeff r) [r_id r] x) (h_recs h'))) M1). cbv beta in X. cbn [q_nodes qr_AddNode quad_new] in X.
  eapply (min_over_trans _ n _ _ _ (le_n _)); [|eapply (min_over_trans _ n _ _ _ (le_n _)); [apply X|]].
  - apply min_over_refl. exact V2.
  - intros x y H. f_equal. apply map_ext_in. intros r Hr. apply mono_ext. intros v [<-|[]]. apply H. apply In_nth_error in Hr. destruct Hr as [v Ev]. rewrite (proj1 (W' v r Ev)). apply (nth_lt _ _ _ Ev).
  - apply min_over_refl. intros x. unfold sem. replace (q_value (qr_AddNode n quad_new) x) with 0%Qc by (unfold q_value; cbn; qring).
    assert (X0 : forall rs, qsum (map (rec_value x) rs) = (qsum (map (fun r => qsum (map (term_value x) (r_terms r))) rs) + qsum (map (fun r => mono (r_coeff r) [r_id r] x) rs))%Qc).
    { clear. induction rs as [|r rs IH]; cbn [map qsum]; [qring|]. rewrite IH. unfold rec_value. qring. }
    rewrite X0. qring.
Qed.

(** *** Histories *)
Lemma AddVars_ok D : forall n h, wf_hoe D h -> wf_hoe D (AddVars n h) /\ length (h_recs (AddVars n h)) = length (h_recs h) + n /\ (forall x, sem (AddVars n h) x = sem h x) /\ h_const (AddVars n h) = h_const h.
Proof.
  induction n as [|n IH]; intros h W; cbn [AddVars]; [split; [exact W|]; split; [lia|]; split; [intros; reflexivity|reflexivity]|]. destruct (AddVar_ok D h W) as (W1 & L1 & M1 & _). destruct (IH (AddVar h) W1) as (W2 & L2 & M2 & K2).
  split; [exact W2|]. split; [lia|]. split; [intros x; rewrite M2; apply M1|]. rewrite K2. reflexivity.
Qed.
Lemma run_ok D : forall cs h, wf_hoe D h -> calls_ok D (length (h_recs h)) cs ->
  exists h', foldM (hoe_step D) cs h = Ret h' /\ wf_hoe D h' /\ length (h_recs h') = length (h_recs h) + poly_vars cs /\
    h_const h' = (h_const h + poly_const cs)%Qc /\ forall x, sem h' x = (sem h x + poly cs x - poly_const cs)%Qc.
Proof.
  induction cs as [|c cs IH]; intros h W OK; cbn [foldM].
  - exists h. split; [reflexivity|]. split; [exact W|]. split; [cbn; lia|]. unfold poly, poly_const. cbn. split; [qring|]. intros x. qring.
  - destruct c as [m|c vs|v c|]; cbn [calls_ok] in OK; cbn [hoe_step].
    + cbn [bind]. destruct (AddVars_ok D m h W) as (W1 & L1 & M1 & K1). rewrite <- L1 in OK. destruct (IH _ W1 OK) as (h' & E & W' & L' & K' & M'). exists h'.
      split; [exact E|]. split; [exact W'|]. split; [change (poly_vars (CVars m :: cs)) with (m + poly_vars cs); lia|]. unfold poly, poly_const in *. cbn [map qsum call_value]. split; [rewrite K', K1; qring|]. intros x. rewrite M', M1. qring.
    + destruct OK as (SS & B & LD & OK). destruct (AddTerm_ok D c vs h W SS B LD) as (h1 & E1 & W1 & L1 & M1 & _ & _ & K1). rewrite E1. cbn [bind]. rewrite <- L1 in OK.
      destruct (IH h1 W1 OK) as (h' & E & W' & L' & K' & M'). exists h'. split; [exact E|]. split; [exact W'|]. split; [change (poly_vars (CTerm c vs :: cs)) with (poly_vars cs); lia|]. unfold poly, poly_const in *. cbn [map qsum call_value]. split; [rewrite K', K1; destruct vs; qring|].
      intros x. rewrite M', M1. destruct vs; [cbn|]; qring.
    + destruct OK as (Lv & OK). destruct (AddUnaryTerm_ok D c v h W Lv) as (h1 & E1 & W1 & L1 & M1 & _ & _ & K1). rewrite E1. cbn [bind]. rewrite <- L1 in OK.
      destruct (IH h1 W1 OK) as (h' & E & W' & L' & K' & M'). exists h'. split; [exact E|]. split; [exact W'|]. split; [change (poly_vars (CUnary v c :: cs)) with (poly_vars cs); lia|]. unfold poly, poly_const in *. cbn [map qsum call_value]. split; [rewrite K', K1; qring|].
      intros x. rewrite M', M1. qring.
    + destruct OK.
Qed.
