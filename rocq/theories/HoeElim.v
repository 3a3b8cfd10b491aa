(** EliminatePositiveTerms keeps the minimum over the new variables. *)
From Coq Require Import QArith Qcanon Sorting.Sorted Lqa.
From Verif Require Import Base HoeModel HoeSpec HoeProofs.
Open Scope nat_scope.

(** Monomials of degree three or more with a positive coefficient only have variables below N. *)
Definition pos_ok (N : nat) (h : hoe) : Prop :=
  forall v r t, nth_error (h_recs h) v = Some r -> In t (r_terms r) -> 2 < length (t_vars t) -> (0 < t_coeff t)%Qc -> Forall (fun u => u < N) (t_vars t).
Definition done (i : nat) (h : hoe) : Prop :=
  forall v r t, v < i -> nth_error (h_recs h) v = Some r -> In t (r_terms r) -> 2 < length (t_vars t) -> (t_coeff t <= 0)%Qc.

Definition isP (t : term) : bool := qpos (t_coeff t).
(** The change of the value by the terms that are taken out. *)
Definition shift (new : nat) (x : nat -> bool) (t : term) : Qc := if x new then 0%Qc else mono (t_coeff t) (tl (t_vars t)) x.

Lemma sorted_snoc l a : StronglySorted lt l -> Forall (fun v => v < a) l -> StronglySorted lt (l ++ [a]).
Proof.
  induction l as [|b l IH]; intros S B; cbn; [repeat constructor|]. inversion S; subst. inversion B; subst. constructor; auto.
  apply Forall_app. split; auto.
Qed.
Lemma sorted_app_r l a : StronglySorted lt (l ++ [a]) -> StronglySorted lt l.
Proof. induction l as [|b l IH]; cbn; intros S; [constructor|]. inversion S; subst. constructor; auto. apply Forall_app in H2. tauto. Qed.
Lemma mono_app c vs v x : mono c (vs ++ [v]) x = if x v then mono c vs x else 0%Qc.
Proof. unfold mono. rewrite forallb_app. cbn. rewrite andb_true_r. destruct (x v); [rewrite andb_true_r|rewrite andb_false_r]; reflexivity. Qed.

Definition rec_same (i : nat) (h h' : hoe) : Prop := forall v, v <= i -> nth_error (h_recs h') v = nth_error (h_recs h) v.

Lemma elim_loop D N i new : N <= new -> i < N -> forall ts h sum kept, wf_hoe D h -> length (h_recs h) = S new -> pos_ok N h ->
  Forall (term_ok D new i) ts -> (forall t, In t ts -> 2 < length (t_vars t) -> (0 < t_coeff t)%Qc -> Forall (fun u => u < N) (t_vars t)) ->
  exists h', foldM (elim_term D i new) ts (h, sum, kept) = Ret (h', (sum + qsum (map t_coeff (filter isP ts)))%Qc, kept ++ filter (fun t => negb (isP t)) ts) /\
    wf_hoe D h' /\ length (h_recs h') = S new /\ pos_ok N h' /\ rec_same i h h' /\ h_const h' = h_const h /\
    (forall x, sem h' x = (sem h x + qsum (map (shift new x) (filter isP ts)))%Qc).
Proof.
  intros LN Li. induction ts as [|t ts IH]; intros h sum kept W L P F PT.
  - cbn. exists h. rewrite app_nil_r. replace (sum + 0)%Qc with sum by qring. split; [reflexivity|]. split; [exact W|]. split; [exact L|]. split; [exact P|]. split; [intros v Hv; reflexivity|]. split; [reflexivity|]. intros x. qring.
  - inversion F as [|? ? (( w & ws & V) & SS & B & LD) F']; subst. cbn [foldM filter]. assert (EP : isP t = qpos (t_coeff t)) by reflexivity. unfold elim_term at 1. cbv beta iota. destruct (qpos (t_coeff t)) eqn:Q; rewrite EP; cbn [negb].
    + rewrite V. cbn [tl]. apply qpos_true in Q. rewrite V in SS, B, LD. inversion SS as [|? ? SS' Hlt]; subst. inversion B as [|? ? Bi B']; subst.
      assert (Hw : i < w) by (inversion Hlt; auto). destruct (Nat.eqb_spec w i) as [->|_]; [lia|].
      destruct (AddTerm_ok D (t_coeff t) (w :: ws) h W SS') as (h1 & E1 & W1 & L1 & M1 & O1 & T1 & K1); [apply (Forall_impl _ (P := fun u => u < new)); [intros; lia|exact B']|cbn in *; lia|].
      rewrite E1. cbn [bind].
      destruct (AddTerm_ok D (- t_coeff t)%Qc ((w :: ws) ++ [new]) h1 W1) as (h2 & E2 & W2 & L2 & M2 & O2 & T2 & K2).
      { apply sorted_snoc; auto. }
      { rewrite L1, L. apply Forall_app. split; [apply (Forall_impl _ (P := fun u => u < new)); [intros; lia|exact B']|repeat constructor]. }
      { rewrite app_length. cbn in *. lia. }
      rewrite E2. cbn [bind].
      assert (PN : 2 < length (t_vars t) -> Forall (fun u => u < N) (t_vars t)) by (intros; apply PT; auto; left; auto).
      assert (P1 : pos_ok N h1).
      { intros v r t' Er Ht Hl Hp. destruct (T1 v r t' Er Ht) as [(r0 & Er0 & Ht0)|(Vt & _)]; [apply (P v r0 t' Er0 Ht0 Hl Hp)|].
        rewrite Vt in *. assert (X := PN ltac:(rewrite V; cbn in *; lia)). rewrite V in X. inversion X; auto. }
      assert (P2 : pos_ok N h2).
      { intros v r t' Er Ht Hl Hp. destruct (T2 v r t' Er Ht) as [(r0 & Er0 & Ht0)|(Vt & [Hc|(r0 & t0 & Er0 & Ht0 & Vt0 & Hc)])]; [apply (P1 v r0 t' Er0 Ht0 Hl Hp)|exfalso; rewrite Hc in Hp; qlra|].
        exfalso. assert (X := P1 v r0 t0 Er0 Ht0). rewrite Vt0, <- Vt in X. assert (Y := X Hl ltac:(rewrite Hc in Hp; qlra)). rewrite Vt in Y. apply Forall_app in Y. destruct Y as [_ Y]. inversion Y. lia. }
      destruct (IH h2 (sum + t_coeff t)%Qc kept W2 ltac:(congruence) P2 F' (fun t' H => PT t' (or_intror H))) as (h3 & E3 & W3 & L3 & P3 & S3 & K3 & M3).
      exists h3. split; [rewrite E3; f_equal; f_equal; f_equal; cbn; qring|]. split; [exact W3|]. split; [exact L3|]. split; [exact P3|]. split; [|split].
      * intros v Hv. rewrite S3 by auto. rewrite O2 by (cbn; intros X; injection X as X; lia). apply O1. cbn. intros X; injection X as X. lia.
      * rewrite K3, K2, K1. cbn [app]. qring.
      * intros x. rewrite M3, M2, M1. cbn [map qsum]. change ((w :: ws) ++ [new]) with (w :: ws ++ [new]). cbv iota. change (w :: ws ++ [new]) with ((w :: ws) ++ [new]).
        rewrite mono_app, mono_opp. change (shift new x t) with (if x new then 0%Qc else mono (t_coeff t) (tl (t_vars t)) x). rewrite V. cbn [tl]. destruct (x new); qring.
    + cbn [bind]. destruct (IH h sum (kept ++ [t]) W L P F' (fun t' H => PT t' (or_intror H))) as (h3 & E3 & R). exists h3. rewrite E3. rewrite <- app_assoc. auto.
Qed.

Lemma min_over_trans n n' e'' e' e : n <= n' -> min_over n' e'' e' -> min_over n e' e -> min_over n e'' e.
Proof.
  intros L [A1 A2] [B1 B2]. split.
  - intros x. eapply Qcle_trans; [apply B1|apply A1].
  - intros x. destruct (B2 x) as (y & Y1 & Y2). destruct (A2 y) as (z & Z1 & Z2). exists z. split; [|congruence]. intros v Hv. rewrite Z1 by lia. auto.
Qed.
Lemma min_over_refl n e e' : (forall x, e' x = e x) -> min_over n e' e.
Proof. intros H. split; [intros x; rewrite H; apply Qcle_refl|]. intros x. exists x. auto. Qed.

(** The positive terms of a variable: their sum with the variable set, and the choice of the new variable. *)
Lemma pos_sum x ts : Forall (fun t => 0 < t_coeff t)%Qc ts ->
  (0 <= qsum (map (fun t => mono (t_coeff t) (tl (t_vars t)) x) ts))%Qc /\
  (qsum (map (fun t => mono (t_coeff t) (tl (t_vars t)) x) ts) <= qsum (map t_coeff ts))%Qc.
Proof.
  induction ts as [|t ts IH]; intros F; cbn; [split; apply Qcle_refl|]. inversion F as [|? ? P F']; subst. destruct (IH F') as [A B].
  unfold mono at 1 3. destruct (forallb x (tl (t_vars t))); split; qlra.
Qed.
Lemma qsum_filter {A} (f : A -> Qc) (p : A -> bool) l : qsum (map f l) = (qsum (map f (filter p l)) + qsum (map f (filter (fun a => negb (p a)) l)))%Qc.
Proof. induction l as [|a l IH]; cbn; [qring|]. rewrite IH. destruct (p a); cbn; qring. Qed.

Lemma AddVar_ok D h : wf_hoe D h -> wf_hoe D (AddVar h) /\ length (h_recs (AddVar h)) = S (length (h_recs h)) /\ (forall x, sem (AddVar h) x = sem h x) /\
  (forall v, v <> length (h_recs h) -> nth_error (h_recs (AddVar h)) v = nth_error (h_recs h) v) /\ (forall r, nth_error (h_recs (AddVar h)) (length (h_recs h)) = Some r -> r_terms r = []).
Proof.
  intros [C W]. unfold AddVar. cbn. rewrite app_length. cbn. split; [split; cbn; rewrite app_length; cbn; [lia|]|].
  - intros v r E. destruct (Nat.lt_ge_cases v (length (h_recs h))) as [L|L].
    + rewrite nth_error_app1 in E by lia. destruct (W v r E) as [I F]. split; auto. eapply Forall_impl; [|exact F]. intros t (A & B & C' & D'). repeat split; auto.
      eapply Forall_impl; [|exact C']. cbn. intros; lia.
    + rewrite nth_error_app2 in E by lia. destruct (v - length (h_recs h)) as [|k] eqn:K; cbn in E; [|destruct k; discriminate]. injection E as <-. cbn. split; [lia|constructor].
  - split; [lia|]. split; [|split].
    + intros x. unfold sem. cbn. rewrite map_app, qsum_app. cbn. unfold rec_value at 2. cbn. unfold mono. destruct (forallb x [h_count h]); qring.
    + intros v N. destruct (Nat.lt_ge_cases v (length (h_recs h))) as [L|L]; [apply nth_error_app1; lia|].
      rewrite (proj2 (nth_error_None (h_recs h) v)) by lia. apply nth_error_None. rewrite app_length. cbn. lia.
    + intros r E. rewrite nth_error_app2, Nat.sub_diag in E by lia. cbn in E. injection E as <-. reflexivity.
Qed.

(** Replacing the terms of a variable. *)
Definition set_terms (h : hoe) (i : nat) (r : vrec) (ts : list term) : hoe := mkHoe (h_const h) (h_count h) (upd (h_recs h) i (mkVrec (r_id r) ts (r_coeff r))).
Lemma set_terms_ok D h i r ts : wf_hoe D h -> nth_error (h_recs h) i = Some r -> Forall (term_ok D (length (h_recs h)) i) ts ->
  wf_hoe D (set_terms h i r ts) /\ length (h_recs (set_terms h i r ts)) = length (h_recs h) /\
  (forall x, sem (set_terms h i r ts) x = (sem h x - qsum (map (term_value x) (r_terms r)) + qsum (map (term_value x) ts))%Qc).
Proof.
  intros [C W] E F. unfold set_terms. cbn. rewrite upd_len. split; [split; cbn; rewrite upd_len; [exact C|]|split; [reflexivity|]].
  - intros v r' E'. destruct (upd_inv _ _ _ _ _ E') as [[<- ->]|E'']; [|apply W; auto]. cbn. split; [apply (W i r E)|exact F].
  - intros x. unfold sem. cbn [h_recs]. rewrite (qsum_upd (rec_value x) _ i r _ E). unfold rec_value at 2 3. cbn [r_coeff r_id r_terms]. qring.
Qed.

Lemma mono2 c u v x : mono c [u; v] x = if x u then (if x v then c else 0%Qc) else 0%Qc.
Proof. unfold mono. cbn. destruct (x u), (x v); reflexivity. Qed.
Lemma elim_var_ok D N h i : wf_hoe D h -> pos_ok N h -> i < N -> N <= length (h_recs h) -> done i h ->
  exists h', elim_var D h i = Ret h' /\ wf_hoe D h' /\ pos_ok N h' /\ length (h_recs h') = S (length (h_recs h)) /\ done (S i) h' /\ h_const h' = h_const h /\
    min_over (length (h_recs h)) (sem h') (sem h).
Proof.
  intros W P Li LN DN. pose proof (proj1 W) as HC. destruct (AddVar_ok D h W) as (W0 & L0 & M0 & O0 & Z0). unfold elim_var. cbv zeta. rewrite HC.
  set (new := length (h_recs h)) in *. set (h0 := AddVar h) in *.
  destruct (nth_some (h_recs h0) i ltac:(lia)) as [r E]. rewrite (rd_some _ _ _ E). cbn [bind]. rewrite (wr_ok (h_recs h0)) by lia. cbn [bind].
  pose proof (proj2 W0 i r E) as [I F]. assert (Eh : nth_error (h_recs h) i = Some r) by (rewrite <- O0; [exact E|lia]).
  pose proof (proj2 (proj2 W i r Eh)) as Fh. fold new in Fh.
  change (mkHoe (h_const h0) (h_count h0) (upd (h_recs h0) i {| r_id := r_id r; r_terms := []; r_coeff := r_coeff r |})) with (set_terms h0 i r []).
  destruct (set_terms_ok D h0 i r [] W0 E (Forall_nil _)) as (W1 & L1 & M1).
  assert (P1 : pos_ok N (set_terms h0 i r [])).
  { intros v r' t E' Ht. unfold set_terms in E'. cbn in E'. destruct (upd_inv _ _ _ _ _ E') as [[<- ->]|E'']; [destruct Ht|].
    destruct (Nat.eq_dec v new) as [->|Nv]; [rewrite (Z0 _ E'') in Ht; destruct Ht|]. rewrite O0 in E'' by auto. apply (P v r' t E'' Ht). }
  destruct (elim_loop D N i new LN Li (r_terms r) (set_terms h0 i r []) 0%Qc [] W1 ltac:(lia) P1 Fh (fun t Ht => P i r t Eh Ht)) as (h2 & E2 & W2 & L2 & P2 & S2 & K2 & M2).
  rewrite E2. cbn [bind app].
  assert (Er2 : nth_error (h_recs h2) i = Some (mkVrec (r_id r) [] (r_coeff r))).
  { rewrite S2 by lia. unfold set_terms. cbn [h_recs]. apply upd_same. lia. }
  rewrite (rd_some _ _ _ Er2). cbn [bind]. rewrite (wr_ok (h_recs h2)) by lia. cbn [bind r_id r_coeff].
  set (kept := filter (fun t => negb (isP t)) (r_terms r)). set (ps := filter isP (r_terms r)) in *.
  change (mkHoe (h_const h2) (h_count h2) (upd (h_recs h2) i (mkVrec (r_id r) kept (r_coeff r)))) with (set_terms h2 i (mkVrec (r_id r) [] (r_coeff r)) kept).
  assert (Fk : Forall (term_ok D (length (h_recs h2)) i) kept).
  { apply Forall_forall. intros t Ht. apply filter_In in Ht. rewrite Forall_forall in F. rewrite L2, <- L0. apply F. apply Ht. }
  destruct (set_terms_ok D h2 i _ kept W2 Er2 Fk) as (W3 & L3 & M3). set (h3 := set_terms h2 i (mkVrec (r_id r) [] (r_coeff r)) kept) in *.
  assert (Fp : Forall (fun t => 0 < t_coeff t)%Qc ps).
  { apply Forall_forall. intros t Ht. apply filter_In in Ht. apply qpos_true. apply Ht. }
  set (sum := (0 + qsum (map t_coeff ps))%Qc) in *.
  assert (R3 : forall v r', nth_error (h_recs h3) v = Some r' -> (v = i /\ r' = mkVrec (r_id r) kept (r_coeff r)) \/ (v <> i /\ nth_error (h_recs h2) v = Some r')).
  { intros v r' E'. unfold h3, set_terms in E'. cbn in E'. destruct (Nat.eq_dec v i) as [->|Nv]; [left; split; auto; rewrite upd_same in E' by lia; congruence|right; split; auto]. rewrite upd_other in E' by auto. exact E'. }
  assert (D3 : done (S i) h3).
  { intros v r' t Hv E' Ht Hl. destruct (R3 v r' E') as [[-> ->]|[Nv E'']].
    - cbn in Ht. apply filter_In in Ht. apply qpos_false. destruct Ht as [_ Ht]. apply negb_true_iff in Ht. exact Ht.
    - rewrite S2 in E'' by lia. unfold set_terms in E''. cbn in E''. rewrite upd_other in E'' by auto. rewrite O0 in E'' by lia. apply (DN v r' t); auto. lia. }
  assert (P3 : pos_ok N h3).
  { intros v r' t E' Ht Hl Hp. destruct (R3 v r' E') as [[-> ->]|[Nv E'']]; [|apply (P2 v r' t E'' Ht Hl Hp)].
    cbn in Ht. apply filter_In in Ht. destruct Ht as [_ Ht]. apply negb_true_iff, qpos_false in Ht. exfalso. revert Hp. apply Qcle_not_lt. exact Ht. }
  assert (MM : min_over new (fun x => (sem h3 x + mono sum [i; new] x)%Qc) (sem h)).
  { assert (SP : forall x, sem h x = (sem h3 x - qsum (map (shift new x) ps) + (if x i then qsum (map (fun t => mono (t_coeff t) (tl (t_vars t)) x) ps) else 0))%Qc).
    { intros x. rewrite M3, M2, M1, M0. cbn [r_terms map qsum]. rewrite (qsum_filter (term_value x) isP (r_terms r)). fold ps kept.
      assert (X : qsum (map (term_value x) ps) = (if x i then qsum (map (fun t => mono (t_coeff t) (tl (t_vars t)) x) ps) else 0)%Qc).
      { assert (Fi : Forall (fun t => exists vs, t_vars t = i :: vs) ps). { apply Forall_forall. intros t Ht. apply filter_In in Ht. rewrite Forall_forall in Fh. destruct (Fh t (proj1 Ht)) as ((w & ws & V) & _). eauto. }
        clear - Fi. induction ps as [|t ts IH]; cbn; [destruct (x i); reflexivity|]. inversion Fi as [|? ? (vs & V) Fi']; subst. rewrite (IH Fi'). unfold term_value, mono. rewrite V. cbn. destruct (x i); cbn; [reflexivity|qring]. }
      rewrite X. qring. }
    assert (SH : forall x, qsum (map (shift new x) ps) = (if x new then 0 else qsum (map (fun t => mono (t_coeff t) (tl (t_vars t)) x) ps))%Qc).
    { intros x. unfold shift. destruct (x new); auto. clear. induction ps; cbn; auto. rewrite IHps. qring. }
    split.
    - intros x. rewrite SP, SH. destruct (pos_sum x ps Fp) as [A B]. rewrite mono2. destruct (x i), (x new); unfold sum; qlra.
    - intros x. exists (fun v => if v =? new then negb (x i) else x v).
      split; [intros v Hv; destruct (Nat.eqb_spec v new); [lia|reflexivity]|].
      set (y := fun v => if v =? new then negb (x i) else x v).
      assert (Yn : y new = negb (x i)) by (unfold y; rewrite Nat.eqb_refl; reflexivity).
      assert (Yi : y i = x i) by (unfold y; destruct (Nat.eqb_spec i new); [lia|reflexivity]).
      assert (Sy : sem h y = sem h x). { apply (sem_ext D); auto. intros v Hv. unfold y. destruct (Nat.eqb_spec v new); [fold new in Hv; lia|reflexivity]. }
      rewrite <- Sy, SP, SH, Yn, Yi. rewrite mono2, Yn, Yi. destruct (x i); cbn [negb]; qring. }
  destruct (Nat.lt_ge_cases D 2) as [LD|LD].
  - assert (Np : ps = []). { unfold ps. destruct (r_terms r) as [|t ts]; auto. inversion Fh as [|? ? ((w & ws & V) & _ & _ & X)]; subst. rewrite V in X. cbn in X. lia. }
    assert (Sz : sum = 0%Qc) by (unfold sum; rewrite Np; cbn; qring). unfold AddTerm. rewrite (proj2 (qzero_spec sum) Sz). exists h3.
    split; [reflexivity|]. split; [exact W3|]. split; [exact P3|]. split; [lia|]. split; [exact D3|]. split; [unfold h3; cbn; rewrite K2; reflexivity|].
    eapply (min_over_trans new new _ _ _ (le_n _)); [|exact MM]. apply min_over_refl. intros x. rewrite Sz, mono_zero. qring.
  - rewrite I. destruct (AddTerm_ok D sum [i; new] h3 W3) as (h4 & E4 & W4 & L4 & M4 & O4 & T4 & K4).
    { repeat constructor. lia. } { rewrite L3, L2. repeat constructor; lia. } { cbn. lia. }
    exists h4. rewrite E4. split; [reflexivity|]. split; [exact W4|]. split; [|split; [lia|split; [|split]]].
    + intros v r' t E' Ht Hl Hp. destruct (T4 v r' t E' Ht) as [(r0 & Er0 & Ht0)|(Vt & _)]; [apply (P3 v r0 t Er0 Ht0 Hl Hp)|]. rewrite Vt in Hl. cbn in Hl. lia.
    + intros v r' t Hv E' Ht Hl. destruct (T4 v r' t E' Ht) as [(r0 & Er0 & Ht0)|(Vt & _)]; [apply (D3 v r0 t Hv Er0 Ht0 Hl)|]. rewrite Vt in Hl. cbn in Hl. lia.
    + rewrite K4. unfold h3. cbn. rewrite K2. cbn. qring.
    + eapply (min_over_trans new new _ _ _ (le_n _)); [|exact MM]. apply min_over_refl. intros x. rewrite M4. reflexivity.
Qed.
Lemma elim_all_ok D h : wf_hoe D h -> exists h', EliminatePositiveTerms D h = Ret h' /\ wf_hoe D h' /\ length (h_recs h) <= length (h_recs h') /\ h_const h' = h_const h /\
  (forall v r t, nth_error (h_recs h') v = Some r -> In t (r_terms r) -> 2 < length (t_vars t) -> (t_coeff t <= 0)%Qc) /\ min_over (length (h_recs h)) (sem h') (sem h).
Proof.
  intros W. unfold EliminatePositiveTerms. set (N := length (h_recs h)).
  assert (G : forall k i h1, i + k = N -> wf_hoe D h1 -> pos_ok N h1 -> N <= length (h_recs h1) -> done i h1 -> h_const h1 = h_const h -> min_over N (sem h1) (sem h) ->
    exists h', foldM (elim_var D) (seq i k) h1 = Ret h' /\ wf_hoe D h' /\ pos_ok N h' /\ N <= length (h_recs h') /\ done N h' /\ h_const h' = h_const h /\ min_over N (sem h') (sem h)).
  { induction k as [|k IH]; intros i h1 Hk W1 P1 L1 D1 K1 M1; cbn [seq foldM].
    - exists h1. replace N with i by lia. replace N with i in M1, P1, L1 by lia. auto 10.
    - destruct (elim_var_ok D N h1 i W1 P1 ltac:(lia) L1 D1) as (h2 & E2 & W2 & P2 & L2 & D2 & K2 & M2). rewrite E2. cbn [bind].
      apply (IH (S i) h2 ltac:(lia) W2 P2 ltac:(lia) D2 ltac:(congruence)). eapply min_over_trans; [exact L1|exact M2|exact M1]. }
  destruct (G N 0 h eq_refl W) as (h' & E & W' & P' & L' & D' & K' & M').
  - intros v r t E Ht _ _. destruct (proj2 W v r E) as [_ F]. rewrite Forall_forall in F. apply (F t Ht).
  - unfold N. lia.
  - intros v r t Hv. lia.
  - reflexivity.
  - apply min_over_refl. reflexivity.
  - exists h'. split; [exact E|]. split; [exact W'|]. split; [exact L'|]. split; [exact K'|]. split; [|exact M'].
    intros v r t Ev Ht Hl. destruct (Nat.lt_ge_cases v N) as [Lv|Lv]; [apply (D' v r t Lv Ev Ht Hl)|].
    apply Qcnot_lt_le. intros Hp. pose proof (P' v r t Ev Ht Hl Hp) as X. destruct (proj2 W' v r Ev) as [_ F]. rewrite Forall_forall in F. destruct (F t Ht) as ((w & ws & V) & _).
    rewrite V in X. inversion X. lia.
Qed.
