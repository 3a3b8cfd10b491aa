(** Reparametrization with immovable labels. *)
From Coq Require Import ZArith QArith Qcanon Sorted.
From Verif Require Import Base Values GmView GmViewSpec GmViewProofs ShapeSpec ShapeProofs ConstraintModel DualDecompModel HoeProofs.
From Verif Require Import LprModel LprSpec LprProofs LprSerial LprArc.
Open Scope nat_scope.

Section I.
Variable g : gmv Qc.
Hypothesis W : wf_gmv g.
Variable mx : bool.
Let n := length (v_labels g).
Let nf := length (v_factors g).
Variable k : nat.
Hypothesis KP : 0 < k.
Hypothesis SL : forall v, v < n -> nth v (v_labels g) 0 = k.
Variable imm : list (list bool).
Hypothesis IL : length imm = n.
Hypothesis IK : Forall (fun m => length m = k) imm.
Definition fixed (v l : nat) : bool := nth l (nth v imm []) false.

Definition writes (d d' : duals) : Prop := exists h, Forall (fun o => match o with LWrite _ _ _ _ => True | _ => False end) h /\ foldM (lpr_step g) h d = Ret d'.
Lemma writes_refl : forall d, writes d d. Proof. intros d. exists []. split; auto. Qed.
Lemma writes_trans : forall d1 d2 d3, writes d1 d2 -> writes d2 d3 -> writes d1 d3.
Proof. intros d1 d2 d3 (h & F & E) (h' & F' & E'). exists (h ++ h'). split; [apply Forall_app; auto|]. rewrite foldM_app, E. auto. Qed.
Lemma writes_put : forall d f j l x, shaped g d -> in_dual g f j l -> writes d (put d f j l x).
Proof. intros d f j l x H I. exists [LWrite f j l x]. split; [constructor; auto|]. cbn. rewrite (wr3_ok g) by auto. auto. Qed.
Lemma writes_shaped : forall d d', shaped g d -> writes d d' -> shaped g d'.
Proof.
  intros d d' H (h & F & E). revert d H E. induction F as [|o h Ho F IH]; intros d H E; cbn in E; [congruence|]. destruct o as [f j l x|]; [|contradiction]. cbn [lpr_step] in E.
  apply bind_inv in E. destruct E as (d1 & E1 & E). pose proof (wr3_in g d f j l x d1 H E1) as I. rewrite (wr3_ok g) in E1 by auto. injection E1 as <-. apply (IH (put d f j l x)); auto. apply put_shaped; auto.
Qed.

Lemma imm_row : forall v, v < n -> rd imm v = Ret (nth v imm []) /\ length (nth v imm []) = k.
Proof. intros v H. split; [apply rd_nth; rewrite IL; auto|]. rewrite Forall_forall in IK. apply IK. apply nth_In. rewrite IL; auto. Qed.

Section F.
Variables (f : nat) (va vb : nat).
Hypothesis EV : vars_of g f = [va; vb].
Definition vn (j : nat) : nat := if j =? 0 then va else vb.
Lemma f_lt : f < nf. Proof. apply vars_lt. rewrite EV. cbn. lia. Qed.
Lemma vn_lt : forall j, vn j < n.
Proof. intros j. destruct (vars_ok g W f) as [_ F]. rewrite EV in F. inversion F as [|? ? A F']; subst. inversion F'; subst. unfold vn. destruct (j =? 0); auto. Qed.
Lemma in_dual_2 : forall j l, j < 2 -> l < k -> in_dual g f j l.
Proof.
  intros j l Hj Hl. unfold in_dual. rewrite EV. cbn [length]. split; [lia|]. split; [lia|].
  replace (nth j [va; vb] 0) with (vn j) by (unfold vn; destruct j as [|[|?]]; [auto|auto|lia]). rewrite SL by apply vn_lt. auto.
Qed.
Lemma col_k : forall d j, shaped g d -> j < 2 -> rd d f = Ret (nth f d []) /\ rd (nth f d []) j = Ret (nth j (nth f d []) []) /\ length (nth j (nth f d []) []) = k.
Proof.
  intros d j H Hj. split; [apply rd_nth; rewrite (shaped_len g d H); apply f_lt|]. split; [apply rd_nth; rewrite (shaped_rows g) by (auto; rewrite EV; cbn; lia); rewrite EV; cbn; lia|].
  rewrite (shaped_col g) by (auto; rewrite EV; cbn; lia). rewrite EV. replace (nth j [va; vb] 0) with (vn j) by (unfold vn; destruct j as [|[|?]]; [auto|auto|lia]). apply SL. apply vn_lt.
Qed.
Lemma vis_rd : forall j, j < 2 -> rd [va; vb] j = Ret (vn j).
Proof. intros j H. unfold vn. destruct j as [|[|?]]; auto; lia. Qed.

Lemma imm_zero_ok : forall d j, shaped g d -> j < 2 -> exists d', imm_zero imm f (vars_of g f) d j = Ret d' /\ writes d d' /\
  forall f' j' l', dv d' f' j' l' = if (f' =? f) && (j' =? j) && (l' <? k) && fixed (vn j) l' then 0%Qc else dv d f' j' l'.
Proof.
  intros d j H Hj. destruct (col_k d j H Hj) as (R1 & R2 & R3). unfold imm_zero. rewrite R1. cbn [bind]. rewrite R2. cbn [bind]. rewrite EV, vis_rd by auto. cbn [bind].
  destruct (imm_row (vn j) (vn_lt j)) as [R4 R5]. rewrite R4. cbn [bind]. rewrite R3.
  assert (G : forall m, m <= k -> exists d', foldM (fun d l => b <- rd (nth (vn j) imm []) l ;; if b : bool then wr3 d f j l 0%Qc else Ret d) (seq 0 m) d = Ret d' /\ writes d d' /\
    forall f' j' l', dv d' f' j' l' = if (f' =? f) && (j' =? j) && (l' <? m) && fixed (vn j) l' then 0%Qc else dv d f' j' l').
  { induction m as [|m IH]; intros Hm.
    - exists d. split; auto. split; [apply writes_refl|]. intros f' j' l'. rewrite !andb_false_r. auto.
    - destruct IH as (d1 & E1 & W1 & V1); [lia|]. pose proof (writes_shaped d d1 H W1) as H1. rewrite seq_S, foldM_app, E1. cbn [bind foldM plus].
      rewrite (rd_nth _ (nth (vn j) imm []) m false) by lia. cbn [bind]. fold (fixed (vn j) m). destruct (fixed (vn j) m) eqn:FX.
      + rewrite (wr3_ok g) by (auto; apply in_dual_2; auto; lia). cbn [bind]. eexists. split; [reflexivity|]. split; [eapply writes_trans; [exact W1|apply writes_put; auto; apply in_dual_2; auto; lia]|].
        intros f' j' l'. rewrite (put_dv g) by (auto; apply in_dual_2; auto; lia). rewrite V1. destruct (f' =? f), (j' =? j); cbn [andb]; auto.
        destruct (Nat.eqb_spec l' m) as [->|NE]; [rewrite FX; destruct (Nat.ltb_spec m (S m)); auto; lia|]. destruct (Nat.ltb_spec l' m), (Nat.ltb_spec l' (S m)); auto; lia.
      + cbn [bind]. exists d1. split; auto. split; auto. intros f' j' l'. rewrite V1. destruct (f' =? f), (j' =? j); cbn [andb]; auto.
        destruct (Nat.ltb_spec l' m), (Nat.ltb_spec l' (S m)); auto; try lia. cbn [andb]. replace l' with m by lia. rewrite FX. auto. }
  apply G. auto.
Qed.

Definition pairv (d : duals) (j l l' : nat) : Qc := highval g d f (if j =? 0 then [l; l'] else [l'; l]).
Lemma pairv_eq : forall d j l l', j < 2 -> pairv d j l l' = (fun_of g f (if Nat.eqb j 0 then [l; l'] else [l'; l]) + (dv d f j l + dv d f (1 - j) l'))%Qc.
Proof.
  intros d j l l' H. unfold pairv, highval. rewrite EV. cbn [length seq sum_over fold_right]. destruct j as [|[|?]]; [| |lia]; cbn [Nat.eqb nth Nat.sub]; ring.
Qed.
Lemma pair_shape : forall j l l', l < k -> l' < k -> in_shape (at_vars (v_labels g) (vars_of g f)) (if j =? 0 then [l; l'] else [l'; l]).
Proof.
  intros j l l' A B. rewrite EV. pose proof (vn_lt 0) as V0. pose proof (vn_lt 1) as V1. unfold vn in V0, V1. cbn [Nat.eqb] in V0, V1. cbn [at_vars map]. rewrite !SL by auto.
  destruct (j =? 0); repeat constructor; auto.
Qed.
Lemma pair_get : forall d j l l', shaped g d -> l < k -> l' < k -> getFactorValue g d f (if j =? 0 then [l; l'] else [l'; l]) = Ret (pairv d j l l').
Proof. intros d j l l' H A B. apply (getFactorValue_high g); auto; [rewrite EV; cbn; lia|apply pair_shape; auto]. Qed.
Definition obetter (x : Qc) (r : option Qc) : Prop := obop mx (Some x) r = false.
Lemma res_fold : forall d j l m res, shaped g d -> l < k -> m <= k -> exists res', 
  foldM (fun res l' => x <- getFactorValue g d f (if j =? 0 then [l; l'] else [l'; l]) ;; Ret (oop3 mx res (Some x))) (seq 0 m) res = Ret res' /\
  (forall l', l' < m -> obetter (pairv d j l l') res') /\ (0 < m -> exists q, res' = Some q).
Proof.
  intros d j l m res H A. revert res. induction m as [|m IH]; intros res HM.
  - exists res. cbn. split; auto. split; intros; lia.
  - destruct (IH res) as (r1 & E1 & R1 & _); [lia|]. rewrite seq_S, foldM_app, E1. cbn [bind foldM plus]. rewrite pair_get by (auto; lia). cbn [bind]. eexists. split; [reflexivity|]. unfold oop3. split.
    + intros l' Hl'. destruct (obop mx r1 (Some (pairv d j l m))) eqn:O.
      * destruct (Nat.eq_dec l' m) as [->|NE]; [|apply R1; lia]. unfold obetter. destruct r1 as [q|]; [|discriminate]. cbn [obop] in *. destruct (better mx (pairv d j l m) q) eqn:Q; auto.
        pose proof (better_tr mx _ _ _ O Q) as X. rewrite better_irr in X. discriminate.
      * unfold obetter. cbn [obop]. destruct (Nat.eq_dec l' m) as [->|NE]; [apply better_irr|]. specialize (R1 l' ltac:(lia)). unfold obetter in R1. destruct r1 as [q|]; [|discriminate]. cbn [obop] in *. eapply better_ntr; eauto.
    + intros _. destruct (obop mx r1 (Some (pairv d j l m))) eqn:O; eauto. destruct r1 as [q|]; eauto. discriminate.
Qed.

Lemma imm_var_ok : forall d j, shaped g d -> j < 2 -> exists d', imm_var g mx imm f (vars_of g f) d j = Ret d' /\ writes d d' /\
  (forall f' j' l', (f' =? f) && (j' =? j) && (l' <? k) && negb (fixed (vn j) l') = false -> dv d' f' j' l' = dv d f' j' l') /\
  forall l l', l < k -> l' < k -> fixed (vn j) l = false -> better mx (pairv d' j l l') 0%Qc = false.
Proof.
  intros d j H Hj. destruct (col_k d j H Hj) as (R1 & R2 & R3). unfold imm_var. rewrite R1. cbn [bind]. rewrite R2. cbn [bind]. rewrite EV, vis_rd by auto. cbn [bind].
  destruct (imm_row (vn j) (vn_lt j)) as [R4 R5]. rewrite R4. cbn [bind]. rewrite R3.
  assert (G : forall m, m <= k -> exists d' res, foldM (imm_label g mx f j (nth (vn j) imm [])) (seq 0 m) (d, None) = Ret (d', res) /\ writes d d' /\
    (forall f' j' l', (f' =? f) && (j' =? j) && (l' <? m) && negb (fixed (vn j) l') = false -> dv d' f' j' l' = dv d f' j' l') /\
    forall l l', l < m -> l' < k -> fixed (vn j) l = false -> better mx (pairv d' j l l') 0%Qc = false).
  { induction m as [|m IH]; intros Hm.
    - exists d, None. split; auto. split; [apply writes_refl|]. split; [auto|]. intros; lia.
    - destruct IH as (d1 & r1 & E1 & W1 & V1 & B1); [lia|]. pose proof (writes_shaped d d1 H W1) as H1. rewrite seq_S, foldM_app, E1. cbn [bind foldM plus]. unfold imm_label at 1.
      rewrite (rd_nth _ (nth (vn j) imm []) m false) by lia. cbn [bind]. fold (fixed (vn j) m). destruct (fixed (vn j) m) eqn:FX.
      + cbn [bind]. exists d1, r1. split; auto. split; auto. split.
        * intros f' j' l' C. apply V1. destruct (f' =? f), (j' =? j); cbn [andb] in *; auto. destruct (Nat.ltb_spec l' m), (Nat.ltb_spec l' (S m)); auto; lia.
        * intros l l' A B C. apply B1; auto. destruct (Nat.eq_dec l m) as [->|]; [congruence|lia].
      + assert (RK : rd (v_labels g) (if j =? 0 then 1 else 0) = Ret k).
        { assert (N2 : 1 < n). { pose proof (vn_lt 0) as A0. pose proof (vn_lt 1) as A1. destruct (vars_ok g W f) as [SS _]. rewrite EV in SS. inversion SS as [|? ? _ FF]; subst. inversion FF; subst. unfold vn in *. cbn in *. lia. }
          assert (OL : (if j =? 0 then 1 else 0) < n) by (destruct (j =? 0); lia). rewrite (rd_nth _ (v_labels g) _ 0 OL). rewrite SL; auto. }
        rewrite RK. cbn [bind]. destruct (res_fold d1 j m k r1 H1 Hm (le_n k)) as (r2 & E2 & R6 & R7). rewrite E2. cbn [bind]. destruct (R7 KP) as (q & ->).
        assert (ID : in_dual g f j m) by (apply in_dual_2; auto). rewrite (rd3_ok g) by auto. cbn [bind]. rewrite (wr3_ok g) by auto. cbn [bind].
        eexists _, _. split; [reflexivity|]. split; [eapply writes_trans; [exact W1|apply writes_put; auto]|]. split.
        * intros f' j' l' C. rewrite (put_dv g) by auto. destruct (Nat.eqb_spec f' f) as [->|NF]; [|apply V1; auto].
          2: { destruct (Nat.eqb_spec f' f); [contradiction|auto]. }
          destruct (Nat.eqb_spec j' j) as [->|NJ]; cbn [andb] in *; [|apply V1; destruct (Nat.eqb_spec j' j); [contradiction|]; rewrite ?andb_false_r; auto].
          destruct (Nat.eqb_spec l' m) as [->|NM]; [exfalso; rewrite FX in C; destruct (Nat.ltb_spec m (S m)); [discriminate|lia]|]. apply V1. rewrite !Nat.eqb_refl. cbn [andb]. destruct (Nat.ltb_spec l' m), (Nat.ltb_spec l' (S m)); auto; lia.
        * intros l l' A B C. rewrite pairv_eq by auto. rewrite !(put_dv g) by auto. rewrite !Nat.eqb_refl. cbn [andb].
          assert (J1 : (1 - j =? j) = false) by (apply Nat.eqb_neq; lia). rewrite J1. cbn [andb]. destruct (Nat.eqb_spec l m) as [->|NM].
          -- specialize (R6 l' B). unfold obetter in R6. cbn [obop] in R6. rewrite pairv_eq in R6 by auto. revert R6. generalize (fun_of g f (if j =? 0 then [m; l'] else [l'; m])) (dv d1 f j m) (dv d1 f (1 - j) l').
             intros a b c. unfold better. destruct mx; rewrite !qlt_false; intros; qlra.
          -- rewrite <- pairv_eq by auto. apply B1; auto. lia. }
  destruct (G k (le_n k)) as (d' & res & E & W' & V' & B'). rewrite E. cbn [bind]. exists d'. auto.
Qed.

(** A factor of two variables whose labels are fixed or not worse than zero *)
Definition settled (d : duals) : Prop :=
  (forall j l, j < 2 -> l < k -> fixed (vn j) l = true -> dv d f j l = 0%Qc) /\
  (forall a b, a < k -> b < k -> fixed va a = false \/ fixed vb b = false -> better mx (pairv d 0 a b) 0%Qc = false).
Lemma imm_factor_two : forall d, shaped g d -> exists d', imm_factor g mx imm d f = Ret d' /\ writes d d' /\ settled d' /\
  forall f' j' l', f' <> f -> dv d' f' j' l' = dv d f' j' l'.
Proof.
  intros d H. unfold imm_factor. rewrite (rd_factor g) by apply f_lt. cbn [bind fst]. replace (length (vars_of g f)) with 2 by (rewrite EV; auto). cbn [Nat.ltb Nat.leb Nat.eqb negb seq foldM].
  destruct (imm_zero_ok d 0 H) as (d1 & E1 & W1 & V1); [lia|]. rewrite E1. cbn [bind]. pose proof (writes_shaped _ _ H W1) as H1.
  destruct (imm_zero_ok d1 1 H1) as (d2 & E2 & W2 & V2); [lia|]. rewrite E2. cbn [bind]. pose proof (writes_shaped _ _ H1 W2) as H2.
  destruct (imm_var_ok d2 0 H2) as (d3 & E3 & W3 & V3 & B3); [lia|]. rewrite E3. cbn [bind]. pose proof (writes_shaped _ _ H2 W3) as H3.
  destruct (imm_var_ok d3 1 H3) as (d4 & E4 & W4 & V4 & B4); [lia|]. rewrite E4. cbn [bind]. exists d4. split; auto.
  split; [repeat (eapply writes_trans; [eassumption|]); apply writes_refl|]. split; [split|].
  - intros j l Hj Hl FX.
    assert (Z : dv d2 f j l = 0%Qc).
    { rewrite V2, V1. rewrite !Nat.eqb_refl. destruct (Nat.ltb_spec l k); [|lia]. destruct j as [|[|?]]; [| |lia]; cbn [Nat.eqb andb vn] in *; unfold vn in *; cbn [Nat.eqb] in *; rewrite FX; auto. }
    rewrite V4, V3; auto; destruct j as [|[|?]]; try lia; unfold vn in *; cbn [Nat.eqb] in *; rewrite ?FX; cbn [negb]; rewrite ?andb_false_r; auto.
  - intros a b Ha Hb FX. destruct (fixed vb b) eqn:FB.
    + destruct FX as [FA|]; [|discriminate]. specialize (B3 a b Ha Hb FA). unfold vn in *. cbn [Nat.eqb] in *. rewrite pairv_eq in * by lia. cbn [Nat.sub] in *.
      rewrite (V4 f 0 a), (V4 f 1 b); auto; [rewrite FB; cbn [negb]; rewrite ?andb_false_r; auto|]. cbn [Nat.eqb]. rewrite !andb_false_r. auto.
    + unfold vn in *. cbn [Nat.eqb] in *. apply (B4 b a); auto.
  - intros f' j' l' NF. apply Nat.eqb_neq in NF. rewrite V4, V3, V2, V1; rewrite ?NF; auto.
Qed.
End F.

Hypothesis O2 : forall f, length (vars_of g f) <= 2.
Definition all_settled (d : duals) (m : nat) : Prop := forall f va vb, f < m -> vars_of g f = [va; vb] -> settled f va vb d.
Lemma settled_ext : forall f va vb d d', vars_of g f = [va; vb] -> (forall j l, dv d' f j l = dv d f j l) -> settled f va vb d -> settled f va vb d'.
Proof.
  intros f va vb d d' EV E [A B]. split.
  - intros j l Hj Hl FX. rewrite E. auto.
  - intros a b Ha Hb FX. specialize (B a b Ha Hb FX). rewrite (pairv_eq f va vb EV) in * by lia. rewrite !E. auto.
Qed.
Lemma imm_all : forall d, shaped g d -> exists d', reparametrizeImmovable g mx d imm = Ret d' /\ writes d d' /\ all_settled d' nf.
Proof.
  intros d H. unfold reparametrizeImmovable, lnf. fold nf.
  assert (G : forall m, m <= nf -> exists d', foldM (imm_factor g mx imm) (seq 0 m) d = Ret d' /\ writes d d' /\ all_settled d' m).
  { induction m as [|m IH]; intros Hm; [exists d; split; auto; split; [apply writes_refl|intros f va vb Hf; lia]|].
    destruct IH as (d1 & E1 & W1 & A1); [lia|]. pose proof (writes_shaped _ _ H W1) as H1. rewrite seq_S, foldM_app, E1. cbn [bind foldM plus].
    destruct (vars_of g m) as [|va [|vb [|vc r]]] eqn:EV.
    - unfold imm_factor. rewrite (rd_factor g) by auto. cbn [bind fst]. rewrite EV. cbn. exists d1. split; auto. split; auto. intros f a b Hf EF. apply A1; auto. destruct (Nat.eq_dec f m) as [->|]; [congruence|lia].
    - unfold imm_factor. rewrite (rd_factor g) by auto. cbn [bind fst]. rewrite EV. cbn. exists d1. split; auto. split; auto. intros f a b Hf EF. apply A1; auto. destruct (Nat.eq_dec f m) as [->|]; [congruence|lia].
    - destruct (imm_factor_two m va vb EV d1 H1) as (d2 & E2 & W2 & S2 & V2). rewrite E2. cbn [bind]. exists d2. split; auto. split; [eapply writes_trans; eauto|].
      intros f a b Hf EF. destruct (Nat.eq_dec f m) as [->|NE].
      + rewrite EV in EF. injection EF as <- <-. auto.
      + apply (settled_ext f a b d1 d2 EF); [|apply A1; auto; lia]. intros j l. apply V2. auto.
    - specialize (O2 m). rewrite EV in O2. cbn in O2. lia. }
  apply G. auto.
Qed.
End I.
